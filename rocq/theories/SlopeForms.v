(** * The rows of the gradient in binary64 beside the exact ones (proofs for C86) *)
From Coq Require Import List ZArith NArith Arith Bool Reals Lra Lia Floats.SpecFloat.
From Flocq Require Import Core.Core IEEE754.BinarySingleNaN.
From Verif Require Import Arith ArithR ArithF Vec Prim Cons Sketch Solve Api Spec SerdeSpec HeapLemmas WfLemmas SpecLemmas PureLemmas FloatLemmas FloatSpec FloatBound
  ExactLemmas ExactSpec DerivLemmas RoundSpec RoundTurn RoundAngle RoundWalk RoundArea AccuracySpec AccuracyLemmas AccuracyForms SlopeSpec SlopeLemmas.
Import ListNotations.
Local Open Scope R_scope.

Section Ops.
Variable L : libm.
#[local] Instance AF : Arith spec_float := ArithF L.
(** ** sums and products that are exact *)
Lemma fin_bound x : finite64 x -> Rabs (value x) < bpow radix2 1024.
Proof. intros [V F]. rewrite value_r64, <- (bx_R x V). apply abs_B2R_lt_emax. Qed.
Lemma rnd_id x : finite64 x -> rnd64 (value x) = value x.
Proof. intros X. apply round_generic; auto with typeclass_instances. now apply fmt_fin. Qed.
Lemma rnd_opp_id x : finite64 x -> rnd64 (- value x) = - value x.
Proof. intros X. apply round_generic; auto with typeclass_instances. apply generic_format_opp. now apply fmt_fin. Qed.
Lemma rnd_0' : rnd64 0 = 0. Proof. apply round_0; auto with typeclass_instances. Qed.
Lemma one_val : finite64 (f1 : spec_float) /\ value (f1 : spec_float) = 1.
Proof.
  split; [split; reflexivity|]. replace (f1 : spec_float) with (S754_finite false 4503599627370496 (-52)) by reflexivity.
  rewrite value_r64. unfold r64, SF2R, F2R. cbn [Fnum Fexp]. change (bp (-52)) with (/ 4503599627370496). cbv [cond_Zopp]. lra.
Qed.
Lemma m1_val : finite64 (f0 -f f1 : spec_float) /\ value (f0 -f f1 : spec_float) = - (1).
Proof.
  split; [split; reflexivity|]. replace (f0 -f f1 : spec_float) with (S754_finite true 4503599627370496 (-52)) by reflexivity.
  rewrite value_r64. unfold r64, SF2R, F2R. cbn [Fnum Fexp]. change (bp (-52)) with (/ 4503599627370496). cbv [cond_Zopp]. simpl Z.opp. lra.
Qed.
Lemma z_val : finite64 (f0 : spec_float) /\ value (f0 : spec_float) = 0. Proof. split; [split|]; reflexivity. Qed.
Lemma zz_val : finite64 (f0 -f f0 : spec_float) /\ value (f0 -f f0 : spec_float) = 0. Proof. split; [split|]; reflexivity. Qed.
Lemma oz_val : finite64 (f1 -f f0 : spec_float) /\ value (f1 -f f0 : spec_float) = 1.
Proof. replace (f1 -f f0 : spec_float) with (f1 : spec_float) by reflexivity. apply one_val. Qed.

(** [c] is 1, -1 or 0 *)
Definition sgn3 (c : spec_float) (v : R) : Prop := finite64 c /\ value c = v /\ (v = 1 \/ v = - (1) \/ v = 0).
Lemma ap_unit x c a m e v : ap x a m e -> sgn3 c v -> ap (x *f c) (a * v) (m * Rabs v) (e * Rabs v).
Proof.
  intros (F & A & B) (Fc & Vc & C). change (x *f c) with (SFmul 53 1024 x c). destruct (mul_real x c F Fc) as [G E].
  { rewrite <- !value_r64, Vc. pose proof (fin_bound x F). destruct C as [->|[->| ->]].
    - rewrite Rmult_1_r, rnd_id; auto.
    - replace (value x * - (1)) with (- value x) by ring. rewrite rnd_opp_id, Rabs_Ropp; auto.
    - rewrite Rmult_0_r, rnd_0', Rabs_R0. apply bpow_gt_0. }
  rewrite <- !value_r64, Vc in E. split; [exact G|]. rewrite Rabs_mult. split; [apply Rmult_le_compat_r; auto; apply Rabs_pos|].
  rewrite E. destruct C as [->|[->| ->]].
  - rewrite !Rmult_1_r, rnd_id, Rabs_R1; auto. lra.
  - replace (value x * - (1)) with (- value x) by ring. rewrite rnd_opp_id, Rabs_Ropp, Rabs_R1, Rmult_1_r; auto. replace (- value x - a * - (1)) with (- (value x - a)) by ring. now rewrite Rabs_Ropp.
  - rewrite !Rmult_0_r, rnd_0', Rminus_0_r, Rabs_R0. lra.
Qed.
Lemma ap_one x a m e : ap x a m e -> ap (x *f f1) a m e.
Proof. intros X. destruct one_val. assert (Z := ap_unit x f1 a m e 1 X). rewrite Rabs_R1, !Rmult_1_r in Z. apply Z. split; auto. Qed.
Lemma ap_zer x a m e : ap x a m e -> ap (x *f f0) 0 0 0.
Proof. intros X. destruct z_val. assert (Z := ap_unit x f0 a m e 0 X). rewrite Rabs_R0, !Rmult_0_r in Z. apply Z. split; auto. Qed.
Lemma ap_plus0 x y a m e : ap x a m e -> ap y 0 0 0 -> ap (x +f y) a m e.
Proof.
  intros (F & A & B) (Fy & _ & C). assert (V : value y = 0). { apply Rabs_le_inv in C. lra. }
  change (x +f y) with (SFadd 53 1024 x y). destruct (add_real x y F Fy) as [G E]; rewrite <- !value_r64, V, Rplus_0_r in *; [rewrite rnd_id; auto; now apply fin_bound|].
  split; [exact G|]. split; [exact A|]. now rewrite E, rnd_id.
Qed.
Lemma ap_0plus x y a m e : ap x a m e -> ap y 0 0 0 -> ap (y +f x) a m e.
Proof.
  intros (F & A & B) (Fy & _ & C). assert (V : value y = 0). { apply Rabs_le_inv in C. lra. }
  change (y +f x) with (SFadd 53 1024 y x). destruct (add_real y x Fy F) as [G E]; rewrite <- !value_r64, V, Rplus_0_l in *; [rewrite rnd_id; auto; now apply fin_bound|].
  split; [exact G|]. split; [exact A|]. now rewrite E, rnd_id.
Qed.
Lemma ap_neg x a m e : ap x a m e -> ap (fneg x) (- a) m e.
Proof.
  intros (F & A & B). destruct (opp_real x F) as [G E]. rewrite <- !value_r64 in E. split; [exact G|]. rewrite Rabs_Ropp. split; [exact A|].
  change (fneg x) with (SFopp x). rewrite E. replace (- value x - - a) with (- (value x - a)) by ring. now rewrite Rabs_Ropp.
Qed.
Lemma ap_f0 m e : 0 <= m -> 0 <= e -> ap (f0 : spec_float) 0 m e.
Proof. intros P Q. destruct z_val as [F V]. split; [exact F|]. rewrite V, Rminus_0_r, Rabs_R0. auto. Qed.
Lemma ap_z0 : ap (f0 : spec_float) 0 0 0. Proof. apply ap_f0; lra. Qed.
Lemma ap_pos x a m e : ap x a m e -> 0 <= m /\ 0 <= e.
Proof. intros (_ & P & Q). pose proof (Rabs_pos a). pose proof (Rabs_pos (value x - a)). lra. Qed.
Lemma ap_0w x m e : 0 <= m -> 0 <= e -> ap x 0 0 0 -> ap x 0 m e. Proof. intros; eapply ap_weaken; eauto. Qed.

(** ** rows against the constant gradients of points and lines *)
Section Row.
Variables (x y : spec_float) (a b m e : R).
Hypothesis X : ap x a m e.
Hypothesis Y : ap y b m e.
Notation rn g G := (Forall2 (fun u v => ap u v m e) g G).
Lemma row_point : rn (rowmul 2 [x; y] point_gradient) [a; b].
Proof.
  change (rowmul 2 [x; y] point_gradient) with [x *f f1 +f y *f f0; x *f f0 +f y *f f1]. constructor; [|constructor; [|constructor]].
  - apply ap_plus0; [now apply ap_one | eapply ap_zer; eauto].
  - apply ap_0plus; [now apply ap_one | eapply ap_zer; eauto].
Qed.
Lemma zero_entry : ap (x *f f0 +f y *f f0) 0 m e.
Proof. destruct (ap_pos _ _ _ _ X). apply ap_0w; auto. apply ap_plus0; eapply ap_zer; eauto. Qed.
Lemma row_start : rn (rowmul 4 [x; y] start_gradient) [a; b; 0; 0].
Proof.
  change (rowmul 4 [x; y] start_gradient) with [x *f f1 +f y *f f0; x *f f0 +f y *f f1; x *f f0 +f y *f f0; x *f f0 +f y *f f0].
  constructor; [|constructor; [|constructor; [apply zero_entry | constructor; [apply zero_entry | constructor]]]].
  - apply ap_plus0; [now apply ap_one | eapply ap_zer; eauto].
  - apply ap_0plus; [now apply ap_one | eapply ap_zer; eauto].
Qed.
Lemma row_end : rn (rowmul 4 [x; y] end_gradient) [0; 0; a; b].
Proof.
  change (rowmul 4 [x; y] end_gradient) with [x *f f0 +f y *f f0; x *f f0 +f y *f f0; x *f f1 +f y *f f0; x *f f0 +f y *f f1].
  constructor; [apply zero_entry|]. constructor; [apply zero_entry|]. constructor; [|constructor; [|constructor]].
  - apply ap_plus0; [now apply ap_one | eapply ap_zer; eauto].
  - apply ap_0plus; [now apply ap_one | eapply ap_zer; eauto].
Qed.
Lemma row_ems : rn (rowmul 4 [x; y] end_minus_start) [- a; - b; a; b].
Proof.
  change (rowmul 4 [x; y] end_minus_start) with [x *f (f0 -f f1) +f y *f (f0 -f f0); x *f (f0 -f f0) +f y *f (f0 -f f1); x *f (f1 -f f0) +f y *f (f0 -f f0); x *f (f0 -f f0) +f y *f (f1 -f f0)].
  assert (SM : sgn3 (f0 -f f1) (- (1))) by (destruct m1_val; split; auto).
  assert (SZ : sgn3 (f0 -f f0) 0) by (destruct zz_val; split; auto). assert (SO : sgn3 (f1 -f f0) 1) by (destruct oz_val; split; auto).
  assert (ZX : ap (x *f (f0 -f f0)) 0 0 0) by (assert (Z := ap_unit x _ a m e 0 X SZ); rewrite Rabs_R0, !Rmult_0_r in Z; exact Z).
  assert (ZY : ap (y *f (f0 -f f0)) 0 0 0) by (assert (Z := ap_unit y _ b m e 0 Y SZ); rewrite Rabs_R0, !Rmult_0_r in Z; exact Z).
  assert (OX : ap (x *f (f1 -f f0)) a m e) by (assert (Z := ap_unit x _ a m e 1 X SO); rewrite Rabs_R1, !Rmult_1_r in Z; exact Z).
  assert (OY : ap (y *f (f1 -f f0)) b m e) by (assert (Z := ap_unit y _ b m e 1 Y SO); rewrite Rabs_R1, !Rmult_1_r in Z; exact Z).
  assert (NX : ap (x *f (f0 -f f1)) (- a) m e).
  { assert (Z := ap_unit x _ a m e (- (1)) X SM). rewrite Rabs_Ropp, Rabs_R1, !Rmult_1_r in Z. replace (- a) with (a * - (1)) by ring. exact Z. }
  assert (NY : ap (y *f (f0 -f f1)) (- b) m e).
  { assert (Z := ap_unit y _ b m e (- (1)) Y SM). rewrite Rabs_Ropp, Rabs_R1, !Rmult_1_r in Z. replace (- b) with (b * - (1)) by ring. exact Z. }
  constructor; [now apply ap_plus0|]. constructor; [now apply ap_0plus|]. constructor; [now apply ap_plus0|]. constructor; [now apply ap_0plus|]. constructor.
Qed.
End Row.
End Ops.

(** ** errors relative to a bound: [x] stands for [a], at most [m], with an error of [c] units in the last place of [m] *)
Section Rel.
Variable L : libm.
#[local] Instance AFr : Arith spec_float := ArithF L.
Definition rp (x : spec_float) (a m c : R) : Prop := ap x a m (c * (U * m)).
Definition mid (m : R) : Prop := bp (-400) <= m <= bp 400.
Lemma eta_mid m : mid m -> 0 < m /\ 0 < U * m /\ eta <= U * m / 1000 /\ U * (U * m) <= U * m / 1000000.
Proof.
  intros [A B]. assert (P : 0 < m) by (pose proof (bpow_gt_0 radix2 (-400)); lra). pose proof U_small as US. assert (Q : 0 < U * m) by (apply Rmult_lt_0_compat; lra). split; auto. split; auto. split.
  - apply Rle_trans with (bp (-53) * bp (-400) * bp (-10)); [unfold eta; rewrite <- !bpow_plus; apply bpow_le; lia|]. rewrite <- U_bp. change (bp (-10)) with (/ 1024).
    assert (U * bp (-400) <= U * m) by (apply Rmult_le_compat_l; lra). assert (0 < bp (-400)) by apply bpow_gt_0. nra.
  - nra.
Qed.
Lemma mid_big m : mid m -> 1000 * m <= big.
Proof. intros [_ B]. apply Rle_trans with (bp 10 * bp 400); [change (bp 10) with 1024; pose proof (bpow_gt_0 radix2 400); lra|]. rewrite <- bpow_plus. apply bp_le. lia. Qed.
Lemma rp_c x a m c c' : mid m -> rp x a m c -> c <= c' -> rp x a m c'.
Proof. intros Mm X C. destruct (eta_mid m Mm) as (_ & Q & _). eapply ap_weaken; [exact X | lra|]. apply Rmult_le_compat_r; lra. Qed.
Lemma rp_exact x m : within m x -> 0 < m -> rp x (value x) m 0.
Proof. intros W P. unfold rp. rewrite Rmult_0_l. now apply ap_exact. Qed.
Lemma rp_mul x y a b m n c d : rp x a m c -> rp y b n d -> 0 <= c <= 80 -> 0 <= d <= 80 -> mid (m * n) -> 0 < m -> 0 < n -> rp (x *f y) (a * b) (m * n) (c + d + 101 / 100).
Proof.
  intros X Y C D Mm Pm Pn. destruct (eta_mid _ Mm) as (P & Q & ET & UU). pose proof (mid_big _ Mm) as G. pose proof U_small as US.
  assert (Em : c * (U * m) <= m). { assert (c * U <= 1) by nra. nra. } assert (Fn : d * (U * n) <= n). { assert (d * U <= 1) by nra. nra. }
  assert (E0 : 0 <= c * (U * m)) by (apply Rmult_le_pos; [lra|]; apply Rmult_le_pos; lra). assert (F0 : 0 <= d * (U * n)) by (apply Rmult_le_pos; [lra|]; apply Rmult_le_pos; lra).
  assert (Z : (m + c * (U * m)) * (n + d * (U * n)) <= big).
  { apply Rle_trans with ((2 * m) * (2 * n)); [apply Rmult_le_compat; lra|]. nra. }
  apply (ap_mul _ _ _ _ _ _ _ _ X Y) in Z. eapply ap_weaken; [exact Z | lra|]. set (q := U * (m * n)) in *.
  replace (c * (U * m) * n + (m + c * (U * m)) * (d * (U * n)) + U * (m * n + (c * (U * m) * n + (m + c * (U * m)) * (d * (U * n)))) + eta)
    with ((c + d + 1) * q + (c * d + c + d + c * d * U) * (U * q) + eta) by (unfold q; ring).
  assert (K : c * d + c + d + c * d * U <= 6600). { assert (c * d <= 6400) by nra. assert (c * d * U <= 1) by nra. lra. }
  assert (0 <= U * q) by (apply Rmult_le_pos; lra). assert (J : (c * d + c + d + c * d * U) * (U * q) <= 6600 * (U * q)) by (apply Rmult_le_compat_r; lra). lra.
Qed.
Lemma rp_sum_bound m n c : 0 <= c <= 80 -> mid (m + n) -> c * (U * m) + c * (U * n) + U * (m + n + (c * (U * m) + c * (U * n))) + eta <= (c + 101 / 100) * (U * (m + n)).
Proof.
  intros C Mm. destruct (eta_mid _ Mm) as (P & Q & ET & UU). pose proof U_small as US. set (q := U * (m + n)) in *.
  replace (c * (U * m) + c * (U * n) + U * (m + n + (c * (U * m) + c * (U * n))) + eta) with (c * q + q + c * (U * q) + eta) by (unfold q; ring).
  assert (c * (U * q) <= 80 * (U * q)) by (apply Rmult_le_compat_r; [apply Rmult_le_pos; lra | lra]). lra.
Qed.
Lemma rp_sum_big m n c : 0 <= c <= 80 -> mid (m + n) -> m + n + c * (U * m) + c * (U * n) <= big.
Proof.
  intros C Mm. destruct (eta_mid _ Mm) as (P & Q & ET & UU). pose proof (mid_big _ Mm) as G. pose proof U_small as US.
  replace (m + n + c * (U * m) + c * (U * n)) with (m + n + c * U * (m + n)) by ring. assert (c * U <= 1) by nra. nra.
Qed.
Lemma rp_add x y a b m n c : rp x a m c -> rp y b n c -> 0 <= c <= 80 -> mid (m + n) -> rp (x +f y) (a + b) (m + n) (c + 101 / 100).
Proof. intros X Y C Mm. eapply ap_weaken; [exact (ap_add _ _ _ _ _ _ _ _ X Y (rp_sum_big m n c C Mm)) | lra | now apply rp_sum_bound]. Qed.
Lemma rp_sub x y a b m n c : rp x a m c -> rp y b n c -> 0 <= c <= 80 -> mid (m + n) -> rp (x -f y) (a - b) (m + n) (c + 101 / 100).
Proof. intros X Y C Mm. eapply ap_weaken; [exact (ap_sub _ _ _ _ _ _ _ _ X Y (rp_sum_big m n c C Mm)) | lra | now apply rp_sum_bound]. Qed.
Lemma rp_div x y a b m c d : rp x a m c -> finite64 y -> Rabs (value y - b) <= d * (U * b) -> 0 <= c <= 80 -> 0 <= d <= 80 -> mid (m / b) -> 0 < b -> 0 < m ->
  rp (x /f y) (a / b) (m / b) (c + d + 11 / 10).
Proof.
  intros (F1 & A & B) Fy Y C D Mm Pb Pm. destruct (eta_mid _ Mm) as (P & Q & ET & UU). pose proof (mid_big _ Mm) as G. pose proof U_small as US.
  set (v := value y) in *. assert (Ub : d * (U * b) <= b / 10000). { assert (d * U <= / 10000) by nra. nra. } apply Rabs_le_inv in Y as Y'.
  assert (Vp : 9999 / 10000 * b <= v) by lra. assert (Vp0 : 0 < v) by nra. assert (Ib : 0 < / b) by (apply Rinv_0_lt_compat; lra). assert (Iv : 0 < / v) by (apply Rinv_0_lt_compat; lra).
  assert (IV : / v <= 10002 / 10000 * / b). { apply (Rmult_le_reg_l v); auto. rewrite Rinv_r by lra. apply (Rmult_le_reg_r b); auto. replace (v * (10002 / 10000 * / b) * b) with (10002 / 10000 * v) by (field; lra). lra. }
  set (q := U * (m / b)) in *.
  assert (N : Rabs (value x / v - a / b) <= (c + d) * q * (10002 / 10000)).
  { replace (value x / v - a / b) with ((value x - a) * / v + a * / b * (- (v - b)) * / v) by (field; lra). eapply Rle_trans; [apply Rabs_triang|]. rewrite !Rabs_mult, Rabs_Ropp, (Rabs_pos_eq (/ v)), (Rabs_pos_eq (/ b)) by lra.
    assert (T1 : Rabs (value x - a) * / v <= c * (U * m) * (10002 / 10000 * / b)) by (apply Rmult_le_compat; auto; [apply Rabs_pos | lra]).
    assert (T2 : Rabs a * / b * Rabs (v - b) * / v <= m * / b * (d * (U * b)) * (10002 / 10000 * / b)).
    { pose proof (Rabs_pos a). pose proof (Rabs_pos (v - b)). apply Rmult_le_compat; auto; [|lra|].
      - apply Rmult_le_pos; [apply Rmult_le_pos|]; lra.
      - apply Rmult_le_compat; auto; [apply Rmult_le_pos; lra|]. apply Rmult_le_compat_r; lra. }
    replace ((c + d) * q * (10002 / 10000)) with (c * (U * m) * (10002 / 10000 * / b) + m * / b * (d * (U * b)) * (10002 / 10000 * / b)) by (unfold q; field; lra). lra. }
  assert (Rab : Rabs (a / b) <= m / b) by (unfold Rdiv; rewrite Rabs_mult, (Rabs_pos_eq (/ b)) by lra; apply Rmult_le_compat_r; lra).
  assert (CD : (c + d) * q <= 160 * q) by (apply Rmult_le_compat_r; lra). assert (Qm : q <= m / b / 1000000) by (unfold q; nra). assert (CD0 : 0 <= (c + d) * q) by (apply Rmult_le_pos; lra).
  destruct (div_real x y F1 Fy) as [FD ED]; [rewrite <- value_r64; fold v; lra | |].
  { rewrite <- !value_r64. fold v. apply big_lt. replace (value x / v) with ((value x / v - a / b) + a / b) by ring. eapply Rle_trans; [apply Rabs_triang|]. lra. }
  rewrite <- !value_r64 in ED. fold v in ED. eapply ap_weaken; [exact (op_ap _ _ _ _ _ FD ED Rab N) | lra|]. fold q.
  assert (UQ : U * ((c + d) * q * (10002 / 10000)) <= q / 1000). { apply Rle_trans with (U * (200 * q)); [apply Rmult_le_compat_l; lra | nra]. }
  replace (U * (m / b + (c + d) * q * (10002 / 10000))) with (q + U * ((c + d) * q * (10002 / 10000))) by (unfold q; ring).
  assert ((c + d) * q * (10002 / 10000) <= (c + d) * q + q * (160 * 2 / 10000)) by lra. 
  replace ((c + d + 11 / 10) * q) with ((c + d) * q + 11 / 10 * q) by ring. lra.
Qed.
End Rel.

(** ** directions of lines and what their normalisation depends on *)
Section Dir.
Variable L : libm.
#[local] Instance AFd : Arith spec_float := ArithF L.
Variables (d : spec_float * spec_float) (v : R * R).
Let l := len v.
Hypothesis B1 : bp (-100) <= l.
Hypothesis B2 : l <= bp 105.
Hypothesis X : apv d v l (U * l + 2 * eta).
Lemma l_mid : mid l /\ mid (l * l) /\ mid (1 / l) /\ mid 1 /\ mid 2 /\ mid (2 / l).
Proof.
  assert (P := bpow_gt_0 radix2 (-100)). assert (P0 : 0 < l) by lra.
  assert (I1 : / bp 105 <= / l) by (apply Rinv_le_contravar; lra). assert (I2 : / l <= / bp (-100)) by (apply Rinv_le_contravar; lra). rewrite <- bpow_opp in I1, I2.
  assert (K1 : bp (-400) <= bp (-105)) by (apply bp_le; lia). assert (K2 : bp 101 <= bp 400) by (apply bp_le; lia). assert (K3 : bp 105 <= bp 400) by (apply bp_le; lia). assert (K4 : bp (-400) <= bp (-100)) by (apply bp_le; lia).
  assert (K5 : 2 * bp 100 = bp 101) by (change 2 with (bp 1); rewrite <- bpow_plus; reflexivity). simpl Z.opp in I1, I2.
  assert (O : bp (-400) <= 1 /\ 2 <= bp 400). { split; [change 1 with (bp 0) | change 2 with (bp 1)]; apply bp_le; lia. }
  assert (Q : 0 < bp 105) by apply bpow_gt_0. assert (Q2 : 0 < bp (-400)) by apply bpow_gt_0.
  unfold mid, Rdiv. rewrite Rmult_1_l. repeat split; try lra.
  - apply Rle_trans with (bp (-100) * bp (-100)); [rewrite <- bpow_plus; apply bp_le; lia | apply Rmult_le_compat; lra].
  - apply Rle_trans with (bp 105 * bp 105); [apply Rmult_le_compat; lra | rewrite <- bpow_plus; apply bp_le; lia].
Qed.
Lemma l_pos : 0 < l. Proof. assert (P := bpow_gt_0 radix2 (-100)). lra. Qed.
Lemma comp_rp : rp (fst d) (fst v) l (101 / 100) /\ rp (snd d) (snd v) l (101 / 100).
Proof.
  destruct l_mid as (Ml & _). destruct (eta_mid _ Ml) as (P & Q & ET & UU). destruct X as (F1 & F2 & _ & E). destruct (comp_le v) as [C1 C2]. destruct (comp_le (sub2 (val2 d) v)) as [D1 D2]. fold l in C1, C2.
  cbn [sub2 val2 fst snd] in D1, D2. split; (split; [assumption|split; [assumption|]]); lra.
Qed.
Lemma norm_rel : finite64 (v2norm d) /\ Rabs (value (v2norm d) - l) <= 61 / 10 * (U * l).
Proof.
  destruct l_mid as (Ml & _). destruct (eta_mid _ Ml) as (P & Q & ET & UU). pose proof U_small as US.
  assert (TU : t <= U * l / 1000).
  { apply Rle_trans with (bp (-53) * bp (-100) * bp (-10)); [rewrite <- !bpow_plus; apply bpow_le; lia|]. rewrite <- U_bp. change (bp (-10)) with (/ 1024).
    assert (U * bp (-100) <= U * l) by (apply Rmult_le_compat_l; lra). assert (0 < bp (-100)) by apply bpow_gt_0. nra. }
  assert (G : l + (U * l + 2 * eta) <= bp 200). { apply Rle_trans with (2 * bp 105); [nra|]. change 2 with (bp 1). rewrite <- bpow_plus. apply bpow_le. lia. }
  destruct (norm_ap L d v _ _ X G) as (N1 & _ & N3). fold l in N3. split; [exact N1|]. eapply Rle_trans; [exact N3|]. nra.
Qed.
Lemma unit_rp : rp (fst d /f v2norm d) (fst v / l) 1 9 /\ rp (snd d /f v2norm d) (snd v / l) 1 9 /\
  rp (fneg (fst d) /f v2norm d) (- fst v / l) 1 9 /\ rp (fneg (snd d) /f v2norm d) (- snd v / l) 1 9.
Proof.
  destruct comp_rp as [C1 C2], norm_rel as [N1 N2], l_mid as (_ & _ & _ & M1 & _). pose proof l_pos as P. assert (E1 : l / l = 1) by (field; lra).
  assert (K : forall x a, rp x a l (101 / 100) -> rp (x /f v2norm d) (a / l) 1 9).
  { intros x a Xa. assert (Z := rp_div L x (v2norm d) a l l _ _ Xa N1 N2). rewrite E1 in Z. eapply rp_c; [exact M1 | apply Z; auto; lra | lra]. }
  split; [now apply K|]. split; [now apply K|]. split; apply K; apply (ap_neg L); assumption.
Qed.
(** an entry of d(v/|v|)/dv *)
Lemma ent_rp x y a b c r : (x = fst d /\ a = fst v \/ x = snd d /\ a = snd v) -> (y = fst d /\ b = fst v \/ y = snd d /\ b = snd v) ->
  rp c r 1 0 -> Rabs (r - a * b / (l * l)) <= 1 ->
  rp ((c -f x *f y /f v2norm2 d) /f v2norm d) ((r - a * b / (l * l)) / l) (1 / l) 35.
Proof.
  intros Ha Hb Hc Hr. destruct comp_rp as [C1 C2], norm_rel as [N1 N2], l_mid as (Ml & Mll & Mi & M1 & M2 & _). pose proof l_pos as P. assert (Pll : 0 < l * l) by nra.
  assert (PX : forall p q i j, rp p i l (101 / 100) -> rp q j l (101 / 100) -> rp (p *f q) (i * j) (l * l) (304 / 100)).
  { intros p q i j Pp Pq. assert (Z := rp_mul L _ _ _ _ _ _ _ _ Pp Pq). eapply rp_c; [exact Mll | apply Z; auto; lra | lra]. }
  assert (XA : rp x a l (101 / 100)) by (destruct Ha as [[-> ->]|[-> ->]]; assumption). assert (YB : rp y b l (101 / 100)) by (destruct Hb as [[-> ->]|[-> ->]]; assumption).
  assert (N2f : finite64 (v2norm2 d) /\ Rabs (value (v2norm2 d) - l * l) <= 82 / 10 * (U * (l * l))).
  { assert (Z := ap_add _ _ _ _ _ _ _ _ (PX _ _ _ _ C1 C1) (PX _ _ _ _ C2 C2)). destruct (eta_mid _ Mll) as (_ & Q & ET & UU). pose proof (mid_big _ Mll). pose proof U_small as US. assert (U * (l * l) <= l * l) by nra.
    assert (Zb : l * l + l * l + 304 / 100 * (U * (l * l)) + 304 / 100 * (U * (l * l)) <= big) by lra. destruct (Z Zb) as (Z1 & _ & Z2). split; [exact Z1|]. change (fst d *f fst d) with (SFmul 53 1024 (fst d) (fst d)) in Z2. change (snd d *f snd d) with (SFmul 53 1024 (snd d) (snd d)) in Z2.
    change (v2norm2 d) with (SFadd 53 1024 (SFmul 53 1024 (fst d) (fst d)) (SFmul 53 1024 (snd d) (snd d))). replace (l * l) with (fst v * fst v + snd v * snd v) at 1 by (unfold l; rewrite len_sq; ring).
    eapply Rle_trans; [exact Z2|]. nra. }
  destruct N2f as [Nf Nr]. assert (E1 : l * l / (l * l) = 1) by (field; lra).
  assert (Q1 : rp (x *f y /f v2norm2 d) (a * b / (l * l)) 1 (1234 / 100)).
  { assert (Z := rp_div L _ _ _ _ _ _ _ (PX _ _ _ _ XA YB) Nf Nr). rewrite E1 in Z. eapply rp_c; [exact M1 | apply Z; auto; lra | lra]. }
  assert (Q2 : rp (c -f x *f y /f v2norm2 d) (r - a * b / (l * l)) 1 27).
  { assert (Hc' : rp c r 1 (1234 / 100)) by (apply (rp_c _ _ _ 0); auto; lra). assert (Z := rp_sub L c (x *f y /f v2norm2 d) r (a * b / (l * l)) 1 1 (1234 / 100) Hc' Q1 ltac:(lra)). replace (1 + 1) with 2 in Z by ring. destruct (Z M2) as (Z1 & _ & Z2).
    split; [exact Z1|]. split; [exact Hr|]. eapply Rle_trans; [exact Z2|]. pose proof U_small. lra. }
  assert (Z := rp_div L _ _ _ l 1 _ _ Q2 N1 N2). eapply rp_c; [exact Mi | apply Z; auto; lra | lra].
Qed.
Lemma unit_sq1 : fst v * fst v / (l * l) + snd v * snd v / (l * l) = 1 /\ 0 <= fst v * fst v / (l * l) <= 1 /\ 0 <= snd v * snd v / (l * l) <= 1 /\ Rabs (fst v * snd v / (l * l)) <= 1.
Proof.
  pose proof l_pos as P. assert (Q : l * l = fst v * fst v + snd v * snd v) by (unfold l; now rewrite len_sq). assert (I : 0 < / (l * l)) by (apply Rinv_0_lt_compat; nra).
  assert (E : fst v * fst v / (l * l) + snd v * snd v / (l * l) = 1) by (unfold Rdiv; rewrite <- Rmult_plus_distr_r, <- Q; apply Rinv_r; nra).
  assert (A0 : 0 <= fst v * fst v / (l * l)) by (apply Rmult_le_pos; [nra | lra]). assert (B0 : 0 <= snd v * snd v / (l * l)) by (apply Rmult_le_pos; [nra | lra]).
  split; auto. split; [lra|]. split; [lra|]. unfold Rdiv. rewrite Rabs_mult, (Rabs_pos_eq (/ (l * l))) by lra. apply (Rmult_le_reg_r (l * l)); [nra|]. rewrite Rmult_assoc, Rinv_l by nra.
  rewrite Rmult_1_r, Rmult_1_l, Q. apply Rabs_le. split; nra.
Qed.
Lemma ngrad_rp x y a b : rp x a 1 32 -> rp y b 1 32 ->
  exists p q, rowmul 2 [x; y] (normalize_gradient d) = [p; q] /\ rp p (fst (ngrad v a b)) (2 / l) 71 /\ rp q (snd (ngrad v a b)) (2 / l) 71.
Proof.
  intros HX HY. pose proof l_pos as P. destruct l_mid as (Ml & Mll & Mi & M1 & M2 & M2l). destruct unit_sq1 as (SQ & S1 & S2 & S3). assert (F1 : finite64 (f1 : spec_float)) by apply (one_val L). assert (V1 : value (f1 : spec_float) = 1) by apply (one_val L). assert (F0 : finite64 (f0 : spec_float)) by apply (z_val L). assert (V0 : value (f0 : spec_float) = 0) by apply (z_val L).
  assert (O1 : rp f1 1 1 0). { split; [exact F1|]. split; [rewrite Rabs_R1; lra|]. rewrite V1, Rminus_diag_eq, Rabs_R0 by auto. pose proof U_small. lra. }
  assert (O0 : rp f0 0 1 0). { split; [exact F0|]. rewrite V0, Rminus_0_r, Rabs_R0. split; pose proof U_small; lra. }
  set (n2 := v2norm2 d). set (n := v2norm d).
  exists (x *f ((f1 -f fst d *f fst d /f n2) /f n) +f y *f ((f0 -f snd d *f fst d /f n2) /f n)), (x *f ((f0 -f fst d *f snd d /f n2) /f n) +f y *f ((f1 -f snd d *f snd d /f n2) /f n)).
  split; [reflexivity|]. assert (EL : 1 * (1 / l) = 1 / l) by (field; lra). assert (E2 : 1 / l + 1 / l = 2 / l) by (field; lra).
  assert (PM : forall p q i j, rp p i 1 32 -> rp q j (1 / l) 35 -> rp (p *f q) (i * j) (1 / l) 69).
  { intros p q i j Pp Pq. assert (Z := rp_mul L _ _ _ _ _ _ _ _ Pp Pq). rewrite EL in Z. eapply rp_c; [exact Mi | apply Z; auto; try lra | lra]. apply Rdiv_lt_0_compat; lra. }
  assert (PA : forall p q i j, rp p i (1 / l) 69 -> rp q j (1 / l) 69 -> rp (p +f q) (i + j) (2 / l) 71).
  { intros p q i j Pp Pq. assert (Z := rp_add L _ _ _ _ _ _ _ Pp Pq ltac:(lra)). rewrite E2 in Z. eapply rp_c; [exact M2l | apply Z; exact M2l | lra]. }
  assert (SY : snd v * fst v / (l * l) = fst v * snd v / (l * l)) by (unfold Rdiv; ring).
  assert (Z1 : Rabs (1 - fst v * fst v / (l * l)) <= 1) by (apply Rabs_le; lra). assert (Z2 : Rabs (1 - snd v * snd v / (l * l)) <= 1) by (apply Rabs_le; lra).
  assert (Z3 : Rabs (0 - fst v * snd v / (l * l)) <= 1) by (rewrite Rminus_0_l, Rabs_Ropp; exact S3). assert (Z4 : Rabs (0 - snd v * fst v / (l * l)) <= 1) by (rewrite SY; exact Z3).
  assert (W1 := ent_rp (fst d) (fst d) (fst v) (fst v) f1 1 ltac:(auto) ltac:(auto) O1 Z1). assert (W2 := ent_rp (snd d) (snd d) (snd v) (snd v) f1 1 ltac:(auto) ltac:(auto) O1 Z2).
  assert (W3 := ent_rp (fst d) (snd d) (fst v) (snd v) f0 0 ltac:(auto) ltac:(auto) O0 Z3). assert (W4 := ent_rp (snd d) (fst d) (snd v) (fst v) f0 0 ltac:(auto) ltac:(auto) O0 Z4).
  unfold ngrad. cbn [fst snd]. fold l n2 n in W1, W2, W3, W4 |- *. split.
  - replace ((a * (1 - fst v * fst v / (l * l)) + b * (0 - snd v * fst v / (l * l))) / l) with (a * ((1 - fst v * fst v / (l * l)) / l) + b * ((0 - snd v * fst v / (l * l)) / l)) by (field; lra).
    apply PA; apply PM; auto.
  - replace ((a * (0 - fst v * snd v / (l * l)) + b * (1 - snd v * snd v / (l * l))) / l) with (a * ((0 - fst v * snd v / (l * l)) / l) + b * ((1 - snd v * snd v / (l * l)) / l)) by (field; lra).
    apply PA; apply PM; auto.
Qed.
End Dir.

(** ** the rows of every kind *)
Section Rows.
Variable L : libm.
#[local] Instance AFw : Arith spec_float := ArithF L.
Hypothesis SC : accurate_sincos L.
Variables (M D : R) (h : heap spec_float).
Hypothesis M1 : / 2 ^ 100 <= M.
Hypothesis M2 : M <= 2 ^ 100.
Let H := exact_heap h.
Let g := cfg_of H.
Variable k : loc.
Hypothesis Sm : smooth L M h k.
Hypothesis SD : slope_unit M h k <= D.
Let B := 6 * D.
Let E := 200 * (U * D).

Lemma refs_ex r : prim_refs H r = prim_refs h r.
Proof.
  destruct r as [p|l|a|c]; try reflexivity.
  - unfold prim_refs. unfold H. rewrite (getA_ex L h). reflexivity.
  - unfold prim_refs. unfold H. rewrite (getC_ex L h). reflexivity.
Qed.
Lemma fin_ex x : finite64 x -> ffin (exact64 x) = true. Proof. intros F. rewrite (exact_fin x F). reflexivity. Qed.
Lemma con_ex : con_finite H (getK H k).
Proof.
  assert (Me := proj1 Sm). destruct Me as (R1 & R2 & R3 & R4). unfold H. rewrite (getK_ex h). fold H. split.
  - assert (K : forall x, within M x -> ffin (exact64 x) = true) by (intros x [Fx _]; rewrite (exact_fin x Fx); reflexivity).
    destruct (getK h k); cbn [exact_con con_new_ok con_params] in *; auto; inversion R3 as [|? ? W1 W2]; subst; auto.
    inversion W2; subst. rewrite !K; auto.
  - intros d Hd. unfold deps in Hd. apply in_flat_map in Hd. destruct Hd as (r & Hr & Hd).
    assert (RC : In r (con_refs (getK h k))) by (destruct (getK h k); exact Hr).
    assert (RD : reads h k d). { exists r. split; auto. destruct Hd as [<-|Hd]; auto. rewrite refs_ex in Hd. auto. }
    destruct d as [p|l|a|c].
    + specialize (R1 p RD). cbn [prim_data] in *. inversion R1 as [|? ? [W1 _] W2]; subst. inversion W2 as [|? ? [W3 _] _]; subst.
      unfold H. rewrite (getP_ex L h). exact (proj2 (andb_true_iff _ _) (conj (fin_ex _ W1) (proj2 (andb_true_iff _ _) (conj (fin_ex _ W3) eq_refl)))).
    + reflexivity.
    + destruct (R2 a RD) as ([W1 _] & W2 & W3). cbn [prim_data]. unfold H. rewrite (getA_ex L h). exact (proj2 (andb_true_iff _ _) (conj (fin_ex _ W1) (proj2 (andb_true_iff _ _) (conj (fin_ex _ W2) (proj2 (andb_true_iff _ _) (conj (fin_ex _ W3) eq_refl)))))).
    + exfalso. destruct RD as (r' & Q1 & Q2). destruct (getK h k); cbn [con_refs In] in Q1; repeat (destruct Q1 as [<-|Q1] || (destruct Q1 as [Q1|Q1]; [subst r'|])); try contradiction; destruct Q2 as [Q2|Q2]; try discriminate; cbn [prim_refs In] in Q2; intuition discriminate.
Qed.
Lemma M_mid : mid M /\ mid (2 * M) /\ mid (3 * M) /\ mid (4 * M) /\ mid (6 * M) /\ 0 < M /\ mid 1 /\ mid (M * M) /\ mid (3 * M * M) /\ mid (6 * (M * M)).
Proof.
  destruct (M_bp M M1 M2) as [A C]. assert (P := bpow_gt_0 radix2 (-100)). assert (P0 : 0 < M) by lra.
  assert (K1 : bp (-400) <= bp (-200)) by (apply bp_le; lia). assert (K2 : 8 * bp 200 <= bp 400) by (change 8 with (bp 3); rewrite <- bpow_plus; apply bp_le; lia).
  assert (K3 : bp (-200) <= bp (-100)) by (apply bp_le; lia). assert (K4 : bp 100 <= bp 200) by (apply bp_le; lia).
  assert (K5 : bp (-200) <= M * M) by (replace (bp (-200)) with (bp (-100) * bp (-100)) by (rewrite <- bpow_plus; reflexivity); apply Rmult_le_compat; lra).
  assert (K6 : M * M <= bp 200) by (replace (bp 200) with (bp 100 * bp 100) by (rewrite <- bpow_plus; reflexivity); apply Rmult_le_compat; lra).
  assert (O : bp (-400) <= 1 /\ 1 <= bp 400). { split; change 1 with (bp 0); apply bp_le; lia. } assert (Q := bpow_gt_0 radix2 (-200)).
  unfold mid. replace (3 * M * M) with (3 * (M * M)) by ring. repeat split; lra.
Qed.
(** rows of a known size *)
Lemma rp_near x a m c : rp x a m c -> 0 <= m <= B -> 0 <= c -> c * m <= 200 * D -> ap x a B E.
Proof. intros X Hm Hc Hd. eapply ap_weaken; [exact X | lra|]. unfold E. pose proof U_small. replace (c * (U * m)) with (U * (c * m)) by ring. replace (200 * (U * D)) with (U * (200 * D)) by ring. apply Rmult_le_compat_l; lra. Qed.
Lemma pts p : reads h k (PPoint p) -> rp (fst (pdata h p)) (cx g p) M 0 /\ rp (snd (pdata h p)) (cy g p) M 0.
Proof.
  intros R. destruct (pt_ok L M h k (proj1 Sm) p R) as [W1 W2]. destruct M_mid as (_ & _ & _ & _ & _ & P & _). unfold g, H. rewrite (cx_ex L h), (cy_ex L h). split; now apply rp_exact.
Qed.
Lemma diff2 x y a b : rp x a M 0 -> rp y b M 0 -> rp (x -f y) (a - b) (2 * M) (101 / 100).
Proof.
  intros X Y. destruct M_mid as (_ & P2 & _). assert (Z := rp_sub L x y a b M M 0 X Y ltac:(lra)). replace (M + M) with (2 * M) in Z by ring. eapply rp_c; [exact P2 | apply Z; exact P2 | lra].
Qed.
Lemma diff3 x y z a b c : rp x a M 0 -> rp y b M 0 -> rp z c M 0 -> rp (x -f y -f z) (a - b - c) (3 * M) (203 / 100).
Proof.
  intros X Y W. destruct M_mid as (P1 & P2 & P3 & _). assert (W' : rp z c M (101 / 100)) by (apply (rp_c _ _ _ 0); auto; lra).
  assert (Z := rp_sub L _ _ _ _ _ _ _ (diff2 _ _ _ _ X Y) W' ltac:(lra)). replace (2 * M + M) with (3 * M) in Z by ring. eapply rp_c; [exact P3 | apply Z; exact P3 | lra].
Qed.
Lemma dir_rp p q : reads h k (PPoint p) -> reads h k (PPoint q) -> let v := from_to g q p in
  apv (v2sub (pdata h p) (pdata h q)) v (len v) (U * len v + 2 * eta) /\ len v <= 3 * M /\ 3 * M <= bp 105 /\ rp (v2norm (v2sub (pdata h p) (pdata h q))) (len v) (3 * M) (64 / 10).
Proof.
  intros Rp Rq v. destruct (sub_pts L M h M1 M2 k (proj1 Sm) p q Rp Rq) as [X0 C0]. assert (EV : v = sub2 (val2 (pdata h p)) (val2 (pdata h q))) by (unfold v, from_to, g, H; rewrite !(cx_ex L h), !(cy_ex L h); reflexivity).
  assert (X : apv (v2sub (pdata h p) (pdata h q)) v (len v) (U * len v + 2 * eta)) by (rewrite EV; exact X0). assert (C : len v <= 3 * M) by (rewrite EV; exact C0). pose proof (units M M1 M2) as (P & UM & _ & _ & _ & _ & BM & _). split; auto. split; auto. split; [lra|].
  eapply ap_weaken; [exact (norm_good L M M1 M2 _ _ X C) | lra | lra].
Qed.
Lemma p100 : / 2 ^ 100 = bp (-100). Proof. rewrite pow_bp. now rewrite <- bpow_opp. Qed.
Lemma slow v : 0 < len v -> v <> (0, 0). Proof. intros P Q. rewrite Q in P. unfold len in P. cbn [fst snd] in P. replace (0 * 0 + 0 * 0) with 0 in P by ring. rewrite sqrt_0 in P. lra. Qed.
Lemma live : active g H (getK H k) /\ eqlen_ok g H (getK H k).
Proof.
  destruct Sm as [(_ & _ & _ & R4) S4]. fold H g in R4, S4. unfold H at 2 4. rewrite (getK_ex h). assert (P100 : 0 < / 2 ^ 100) by (apply Rinv_0_lt_compat, pow_lt; lra).
  destruct (getK h k); cbn [exact_con active eqlen_ok] in *; cbv zeta in R4, S4; fold H in R4, S4; fold g in R4, S4; auto; try contradiction.
  - split; auto. eapply Rle_trans; [|exact S4]. unfold tiny. simpl. lra.
  - destruct S4. split; auto. split; apply slow; lra.
  - destruct R4. split; auto. split; apply slow; lra.
  - destruct R4. split; auto. split; apply slow; lra.
Qed.
Definition rows_ok (c : con spec_float) : Prop := rows_near B E (grad_rows h c) (rowsR g H (exact_con c)) /\ (length (rowsR g H (exact_con c)) <= 2)%nat.
Lemma rows_from : rows_ok (getK h k) -> exists Rs, (length Rs <= 2)%nat /\ rows_near B E (grad_rows h (getK h k)) Rs /\ grad_rows H (getK H k) = map toFin Rs.
Proof.
  intros [R1 R2]. exists (rowsR g H (exact_con (getK h k))). split; auto. split; auto. destruct live as [A Q]. destruct (grad_rows_R H (getK H k) con_ex Q) as [G _]. fold g in G. rewrite (G A). unfold H at 2. now rewrite (getK_ex h).
Qed.
Lemma ref_in r : In r (con_refs (getK h k)) -> reads h k r. Proof. apply reads_ref. Qed.
Lemma near2 t1 t2 r1 r2 R1 R2 : row_near B E r1 R1 -> row_near B E r2 R2 -> rows_near B E [(t1, r1); (t2, r2)] [(t1, R1); (t2, R2)].
Proof. intros X Y. constructor; [split; [reflexivity | exact X]|]. constructor; [split; [reflexivity | exact Y]|]. constructor. Qed.
Lemma both_pts p1 p2 x y a b : ap x a B E -> ap y b B E ->
  rows_near B E [(GPoint p1, rowmul 2 [x; y] point_gradient); (GPoint p2, rowmul 2 (vneg [x; y]) point_gradient)] [(GPoint p1, [a; b]); (GPoint p2, [- a; - b])].
Proof. intros X Y. apply near2; [now apply (row_point L)|]. apply (row_point L); now apply (ap_neg L). Qed.
Lemma both_pts' p1 p2 x y a b : ap x a B E -> ap y b B E ->
  rows_near B E [(GPoint p1, rowmul 2 (vneg [x; y]) point_gradient); (GPoint p2, rowmul 2 [x; y] point_gradient)] [(GPoint p1, [- a; - b]); (GPoint p2, [a; b])].
Proof. intros X Y. apply near2; [|now apply (row_point L)]. apply (row_point L); now apply (ap_neg L). Qed.
Lemma D_pos : M <= D -> 0 <= B /\ 0 <= E.
Proof. intros MD. destruct M_mid as (_ & _ & _ & _ & _ & P & _). pose proof U_small. unfold B, E. split; [lra|]. apply Rmult_le_pos; [lra|]. apply Rmult_le_pos; lra. Qed.

Lemma rows_dist p1 p2 d : getK h k = EuclideanDistance p1 p2 d -> rows_ok (EuclideanDistance p1 p2 d).
Proof.
  intros EK. assert (Sm' := Sm). destruct Sm' as [(_ & _ & R3 & _) S4]. assert (MD := SD). unfold slope_unit in MD. rewrite EK in R3, S4, MD. fold H in S4. fold g in S4. cbn [con_params] in R3. inversion R3 as [|? ? W _]. subst.
  destruct (dir_rp p1 p2) as (X & C & C2 & N); [apply ref_in; rewrite EK; simpl; auto | apply ref_in; rewrite EK; simpl; auto|]. set (v := from_to g p2 p1) in *. set (dd := v2sub (pdata h p1) (pdata h p2)) in *.
  destruct M_mid as (P1 & P2 & P3 & P4 & P6 & P & O & _). assert (L19 : bp (-19) <= len v). { eapply Rle_trans; [|exact S4]. change (bp (-19)) with (/ 524288). right. f_equal. simpl. ring. } assert (L100 : bp (-100) <= len v) by (eapply Rle_trans; [|exact L19]; apply bp_le; lia).
  assert (L105 : len v <= bp 105) by lra. destruct (norm_rel L dd v L100 L105 X) as [NF NR]. destruct (unit_rp L dd v L100 L105 X) as (U1 & U2 & _).
  assert (ERR : rp (v2norm dd -f d) (len v - value d) (4 * M) 8).
  { assert (Wd : rp d (value d) M (64 / 10)) by (apply (rp_c _ _ _ 0); [exact P1 | apply rp_exact; auto | lra]). assert (Z := rp_sub L _ _ _ _ _ _ _ N Wd ltac:(lra)).
    replace (3 * M + M) with (4 * M) in Z by ring. eapply rp_c; [exact P4 | apply Z; exact P4 | lra]. }
  assert (PR : forall x a, rp x a 1 9 -> ap ((v2norm dd -f d) *f f1 *f x) ((len v - value d) * a) B E).
  { intros x a Xa. assert (Z := rp_mul L _ _ _ _ _ _ _ _ (ap_one L _ _ _ _ ERR : rp _ _ _ 8) Xa ltac:(lra) ltac:(lra)). rewrite Rmult_1_r in Z. specialize (Z P4 ltac:(lra) ltac:(lra)). apply (rp_near _ _ _ _ Z); unfold B; lra. }
  split; [|simpl; auto]. cbn [grad_rows rowsR exact_con]. fold dd v.
  replace (flt (v2norm dd) lit_1em6) with false.
  - rewrite vx_ex. apply both_pts; apply PR; assumption.
  - symmetry. apply Bool.not_true_is_false. intros Lt. change (SFltb (v2norm dd) (lit64 1 6) = true) in Lt. assert (F6 : finite64 (lit64 1 6)) by (split; vm_compute; reflexivity). apply (ltb_R _ _ NF F6) in Lt. rewrite <- !value_r64 in Lt.
    assert (V6 : value (lit64 1 6) <= / 900000).
    { replace (lit64 1 6) with (S754_finite false 4722366482869645 (-72)) by (vm_compute; reflexivity). rewrite value_r64. unfold r64, SF2R, F2R. cbn [Fnum Fexp]. change (bp (-72)) with (/ 4722366482869645213696). cbv [cond_Zopp]. lra. }
    apply Rabs_le_inv in NR. change (bp (-19)) with (/ 524288) in L19. pose proof U_small. assert (U * len v <= len v / 1000000) by nra. lra.
Qed.
Lemma rows_hor p1 p2 d : getK h k = HorizontalDistance p1 p2 d -> rows_ok (HorizontalDistance p1 p2 d).
Proof.
  intros EK. assert (Sm' := Sm). destruct Sm' as [(_ & _ & R3 & _) _]. assert (MD := SD). unfold slope_unit in MD. rewrite EK in R3, MD. cbn [con_params] in R3. inversion R3 as [|? ? W _]. subst.
  destruct (pts p1) as [A1 A2]; [apply ref_in; rewrite EK; simpl; auto|]. destruct (pts p2) as [B1 B2]; [apply ref_in; rewrite EK; simpl; auto|]. destruct M_mid as (P1 & P2 & P3 & P4 & P6 & P & O & _). destruct (D_pos MD).
  assert (Z := diff3 _ _ _ _ _ _ B1 A1 (rp_exact _ _ W P)). assert (X : ap (fst (v2sub (pdata h p2) (pdata h p1)) -f d) (cx g p2 - cx g p1 - value d) B E) by (apply (rp_near _ _ _ _ Z); unfold B; lra).
  split; [|simpl; auto]. cbn [grad_rows rowsR exact_con]. rewrite vx_ex. replace 0 with (-0) at 1 by ring. apply both_pts'; [apply (ap_one L), (ap_one L), X|]. apply ap_0w; auto. eapply (ap_zer L). apply (ap_one L), X.
Qed.
Lemma rows_ver p1 p2 d : getK h k = VerticalDistance p1 p2 d -> rows_ok (VerticalDistance p1 p2 d).
Proof.
  intros EK. assert (Sm' := Sm). destruct Sm' as [(_ & _ & R3 & _) _]. assert (MD := SD). unfold slope_unit in MD. rewrite EK in R3, MD. cbn [con_params] in R3. inversion R3 as [|? ? W _]. subst.
  destruct (pts p1) as [A1 A2]; [apply ref_in; rewrite EK; simpl; auto|]. destruct (pts p2) as [B1 B2]; [apply ref_in; rewrite EK; simpl; auto|]. destruct M_mid as (P1 & P2 & P3 & P4 & P6 & P & O & _). destruct (D_pos MD).
  assert (Z := diff3 _ _ _ _ _ _ B2 A2 (rp_exact _ _ W P)). assert (X : ap (snd (v2sub (pdata h p2) (pdata h p1)) -f d) (cy g p2 - cy g p1 - value d) B E) by (apply (rp_near _ _ _ _ Z); unfold B; lra).
  split; [|simpl; auto]. cbn [grad_rows rowsR exact_con]. rewrite vx_ex. replace 0 with (-0) at 1 by ring. apply both_pts'; [|apply (ap_one L), (ap_one L), X]. apply ap_0w; auto. eapply (ap_zer L). apply (ap_one L), X.
Qed.
Lemma rows_fix p x y : getK h k = FixPoint p x y -> rows_ok (FixPoint p x y).
Proof.
  intros EK. assert (Sm' := Sm). destruct Sm' as [(_ & _ & R3 & _) _]. assert (MD := SD). unfold slope_unit in MD. rewrite EK in R3, MD. cbn [con_params] in R3. inversion R3 as [|? ? W1 W']. inversion W' as [|? ? W2 _]. subst.
  destruct (pts p) as [A1 A2]; [apply ref_in; rewrite EK; simpl; auto|]. destruct M_mid as (P1 & P2 & P3 & P4 & P6 & P & O & _).
  split; [|simpl; auto]. cbn [grad_rows rowsR exact_con]. rewrite !vx_ex. constructor; [|constructor]. split; [reflexivity|]. constructor; [|constructor; [|constructor]].
  - apply (rp_near _ _ _ _ (diff2 _ _ _ _ A1 (rp_exact _ _ W1 P))); unfold B; lra.
  - apply (rp_near _ _ _ _ (diff2 _ _ _ _ A2 (rp_exact _ _ W2 P))); unfold B; lra.
Qed.
Lemma ends l : In (PLine l) (con_refs (getK h k)) -> let s := l_start (getL h l) in let e := l_end (getL h l) in reads h k (PPoint s) /\ reads h k (PPoint e).
Proof. intros I. split; exists (PLine l); split; auto; right; simpl; auto. Qed.
Lemma rows_hl l : getK h k = HorizontalLine l -> rows_ok (HorizontalLine l).
Proof.
  intros EK. assert (MD := SD). unfold slope_unit in MD. rewrite EK in MD. destruct (ends l) as [R1 R2]; [rewrite EK; simpl; auto|]. destruct (pts _ R1) as [A1 A2]. destruct (pts _ R2) as [B1 B2].
  destruct M_mid as (P1 & P2 & P3 & P4 & P6 & P & O & _). destruct (D_pos MD). assert (Z := diff2 _ _ _ _ B2 A2).
  assert (X : ap (snd (line_end h l) -f snd (line_start h l)) (snd (dirR g H l)) B E) by (apply (rp_near _ _ _ _ Z); unfold B; lra).
  assert (X0 : ap (f0 : spec_float) 0 B E) by (apply ap_f0; auto). assert (N0 : ap (fneg f0 : spec_float) 0 B E) by (replace 0 with (-0) by ring; now apply (ap_neg L)).
  split; [|simpl; auto]. cbn [grad_rows rowsR exact_con]. apply near2; [apply (row_start L); [exact N0 | now apply (ap_neg L)] | now apply (row_end L)].
Qed.
Lemma rows_vl l : getK h k = VerticalLine l -> rows_ok (VerticalLine l).
Proof.
  intros EK. assert (MD := SD). unfold slope_unit in MD. rewrite EK in MD. destruct (ends l) as [R1 R2]; [rewrite EK; simpl; auto|]. destruct (pts _ R1) as [A1 A2]. destruct (pts _ R2) as [B1 B2].
  destruct M_mid as (P1 & P2 & P3 & P4 & P6 & P & O & _). destruct (D_pos MD). assert (Z := diff2 _ _ _ _ B1 A1).
  assert (X : ap (fst (line_end h l) -f fst (line_start h l)) (fst (dirR g H l)) B E) by (apply (rp_near _ _ _ _ Z); unfold B; lra).
  assert (X0 : ap (f0 : spec_float) 0 B E) by (apply ap_f0; auto). assert (N0 : ap (fneg f0 : spec_float) 0 B E) by (replace 0 with (-0) by ring; now apply (ap_neg L)).
  split; [|simpl; auto]. cbn [grad_rows rowsR exact_con]. apply near2; [apply (row_start L); [now apply (ap_neg L) | exact N0] | now apply (row_end L)].
Qed.
Lemma line_dir l : In (PLine l) (con_refs (getK h k)) -> let v := dirR g H l in let d := v2sub (line_end h l) (line_start h l) in
  apv d v (len v) (U * len v + 2 * eta) /\ len v <= bp 105 /\ rp (v2norm d) (len v) (3 * M) (64 / 10).
Proof. intros I v d. destruct (ends l I) as [R1 R2]. destruct (dir_rp _ _ R2 R1) as (X & C & C2 & N). split; [exact X|]. split; [|exact N]. unfold v. change (dirR g H l) with (from_to g (l_start (getL h l)) (l_end (getL h l))). lra. Qed.
Lemma rows_eq l1 l2 : getK h k = EqualLength l1 l2 -> rows_ok (EqualLength l1 l2).
Proof.
  intros EK. assert (Sm' := Sm). destruct Sm' as [_ S4]. assert (MD := SD). unfold slope_unit in MD. rewrite EK in S4, MD. destruct S4 as [N1 N2]. fold H in N1, N2. fold g in N1, N2. rewrite p100 in N1, N2.
  destruct (line_dir l1) as (X1 & C1 & Z1); [rewrite EK; simpl; auto|]. destruct (line_dir l2) as (X2 & C2 & Z2); [rewrite EK; simpl; auto|].
  destruct M_mid as (P1 & P2 & P3 & P4 & P6 & P & O & _). destruct (unit_rp L _ _ N1 C1 X1) as (U1 & U2 & _). destruct (unit_rp L _ _ N2 C2 X2) as (_ & _ & U3 & U4).
  set (d1 := v2sub (line_end h l1) (line_start h l1)) in *. set (d2 := v2sub (line_end h l2) (line_start h l2)) in *. set (v1 := dirR g H l1) in *. set (v2 := dirR g H l2) in *.
  assert (ERR : rp (v2norm d1 -f v2norm d2) (len v1 - len v2) (6 * M) 8).
  { assert (Z := rp_sub L _ _ _ _ _ _ _ Z1 Z2 ltac:(lra)). replace (3 * M + 3 * M) with (6 * M) in Z by ring. eapply rp_c; [exact P6 | apply Z; exact P6 | lra]. }
  assert (PR : forall x a, rp x a 1 9 -> ap ((v2norm d1 -f v2norm d2) *f x) ((len v1 - len v2) * a) B E).
  { intros x a Xa. assert (Z := rp_mul L _ _ _ _ _ _ _ _ ERR Xa ltac:(lra) ltac:(lra)). rewrite Rmult_1_r in Z. specialize (Z P6 ltac:(lra) ltac:(lra)). apply (rp_near _ _ _ _ Z); unfold B; lra. }
  split; [|simpl; auto]. cbn [grad_rows rowsR exact_con]. fold d1 d2 v1 v2. unfold on_line. cbn [fst snd]. apply near2; apply (row_ems L); apply PR; assumption.
Qed.
(** the end of arc [a] at the angle [w], compared with point [p] *)
Section ArcEnd.
Variables (a p : loc) (w : spec_float).
Hypothesis Ra : reads h k (PArc a).
Hypothesis Rc : reads h k (PPoint (a_center (getA h a))).
Hypothesis Rp : reads h k (PPoint p).
Hypothesis Fw : finite64 w.
Hypothesis MD : M * Rmax 1 M <= D.
Let r := a_radius (getA h a).
Let c := pdata h (a_center (getA h a)).
Let x := (fst c +f r *f fcos w) -f fst (pdata h p).
Let y := (snd c +f r *f fsin w) -f snd (pdata h p).
Let X := cx g (a_center (getA h a)) + cr g a * cos (value w) - cx g p.
Let Y := cy g (a_center (getA h a)) + cr g a * sin (value w) - cy g p.
Lemma arc_D : 0 < M /\ M <= D /\ M * M <= D.
Proof.
  destruct M_mid as (_ & _ & _ & _ & _ & P & _). pose proof (Rmax_l 1 M). pose proof (Rmax_r 1 M). split; auto. split; eapply Rle_trans; try exact MD; nra.
Qed.
Lemma trig_rp : rp (fcos w) (cos (value w)) 1 8 /\ rp (fsin w) (sin (value w)) 1 8.
Proof.
  destruct (SC w Fw) as (S1 & S2 & S3 & S4). destruct (bound_trig (value w)) as [T1 T2]. assert (E50 : / 2 ^ 50 = 8 * (U * 1)) by (unfold U; simpl; field). rewrite E50 in S2, S4. split; (split; [assumption | split; assumption]).
Qed.
Lemma rad_rp : rp r (cr g a) M 0.
Proof. destruct Sm as [(_ & R2 & _) _]. destruct (R2 a Ra) as (W & _). destruct M_mid as (_ & _ & _ & _ & _ & P & _). unfold g, H. rewrite (cr_ex L h). now apply rp_exact. Qed.
Lemma arc_xy : rp x X (3 * M) 8 /\ rp y Y (3 * M) 8.
Proof.
  destruct Sm as [Me _]. pose proof Me as (_ & R2 & _). destruct (R2 a Ra) as (W & _). destruct (pt_ok L M h k Me _ Rc) as [C1 C2]. destruct (pts p Rp) as [Q1 Q2]. destruct (SC w Fw) as (S1 & S2 & S3 & S4). destruct (bound_trig (value w)) as [T1 T2].
  destruct M_mid as (P1 & P2 & P3 & _ & _ & P & _). pose proof U_small as US. assert (UM : 0 < U * M) by (apply Rmult_lt_0_compat; lra).
  assert (K : forall (u v : spec_float) al be, ap u al (2 * M) (12 * (U * M)) -> rp v be M 0 -> rp (u -f v) (al - be) (3 * M) 8).
  { intros u v al be Hu Hv. assert (Hu' : rp u al (2 * M) 6) by (eapply ap_weaken; [exact Hu | lra | lra]). assert (Hv' : rp v be M 6) by (apply (rp_c _ _ _ 0); auto; lra).
    assert (Z := rp_sub L _ _ _ _ _ _ _ Hu' Hv' ltac:(lra)). replace (2 * M + M) with (3 * M) in Z by ring. eapply rp_c; [exact P3 | apply Z; exact P3 | lra]. }
  unfold X, Y. assert (EX : cx g (a_center (getA h a)) = value (fst c)) by apply (cx_ex L h). assert (EY : cy g (a_center (getA h a)) = value (snd c)) by apply (cy_ex L h). assert (ER : cr g a = value r) by apply (cr_ex L h). rewrite EX, EY, ER.
  split; apply K; auto; apply (polar_ap M M1 M2); auto.
Qed.
Lemma ap_xy : ap x X B E /\ ap y Y B E.
Proof. destruct arc_D as (P & Q1 & Q2). destruct arc_xy as [Z1 Z2]. split; [apply (rp_near _ _ _ _ Z1) | apply (rp_near _ _ _ _ Z2)]; unfold B; lra. Qed.
Lemma arc_radial : ap (x *f fcos w +f y *f fsin w) (X * cos (value w) + Y * sin (value w)) B E.
Proof.
  destruct arc_D as (P & Q1 & Q2). destruct arc_xy as [Z1 Z2]. destruct trig_rp as [T1 T2]. destruct M_mid as (_ & _ & P3 & _ & P6 & _). 
  assert (V1 := rp_mul L _ _ _ _ _ _ _ _ Z1 T1 ltac:(lra) ltac:(lra)). assert (V2 := rp_mul L _ _ _ _ _ _ _ _ Z2 T2 ltac:(lra) ltac:(lra)). rewrite !Rmult_1_r in V1, V2. specialize (V1 P3 ltac:(lra) ltac:(lra)). specialize (V2 P3 ltac:(lra) ltac:(lra)).
  assert (V := rp_add L _ _ _ _ _ _ _ V1 V2 ltac:(lra)). replace (3 * M + 3 * M) with (6 * M) in V by ring. apply (rp_near _ _ _ _ (V P6)); unfold B; lra.
Qed.
Lemma arc_angular : ap (x *f (fneg r *f fsin w) +f y *f (r *f fcos w)) (X * (- cr g a * sin (value w)) + Y * (cr g a * cos (value w))) B E.
Proof.
  destruct arc_D as (P & Q1 & Q2). destruct arc_xy as [Z1 Z2]. destruct trig_rp as [T1 T2]. destruct M_mid as (P1 & _ & P3 & _ & P6 & _ & _ & PMM & P3M & P6M). pose proof rad_rp as RR. assert (NR : rp (fneg r) (- cr g a) M 0) by (apply (ap_neg L); exact RR).
  assert (W1 := rp_mul L _ _ _ _ _ _ _ _ NR T2 ltac:(lra) ltac:(lra)). assert (W2 := rp_mul L _ _ _ _ _ _ _ _ RR T1 ltac:(lra) ltac:(lra)). rewrite !Rmult_1_r in W1, W2. specialize (W1 P1 ltac:(lra) ltac:(lra)). specialize (W2 P1 ltac:(lra) ltac:(lra)).
  assert (V1 := rp_mul L _ _ _ _ _ _ _ _ Z1 W1 ltac:(lra) ltac:(lra) P3M ltac:(lra) ltac:(lra)). assert (V2 := rp_mul L _ _ _ _ _ _ _ _ Z2 W2 ltac:(lra) ltac:(lra) P3M ltac:(lra) ltac:(lra)).
  assert (V := rp_add L _ _ _ _ _ _ _ V1 V2 ltac:(lra)). replace (3 * M * M + 3 * M * M) with (6 * (M * M)) in V by ring. pose proof (Rmult_lt_0_compat _ _ P P). apply (rp_near _ _ _ _ (V P6M)); unfold B; lra.
Qed.
Lemma arc_point : row_near B E (rowmul 2 (vneg [x; y]) point_gradient) [- X; - Y].
Proof. destruct ap_xy as [V1 V2]. apply (row_point L); now apply (ap_neg L). Qed.
Lemma arc_x : ap (x *f f1 +f y *f f0) X B E /\ ap (x *f f0 +f y *f f1) Y B E /\ ap (x *f f0 +f y *f f0) 0 B E.
Proof.
  destruct ap_xy as [V1 V2]. assert (Z := row_point L _ _ _ _ _ _ V1 V2). inversion Z as [|? ? ? ? Z1 Z2]. inversion Z2 as [|? ? ? ? Z3 _]. split; [exact Z1|]. split; [exact Z3|]. exact (zero_entry L _ _ _ _ _ _ V1 V2).
Qed.
End ArcEnd.
Lemma rows_ae a p : getK h k = ArcEndPointCoincident a p -> rows_ok (ArcEndPointCoincident a p).
Proof.
  intros EK. assert (MD := SD). unfold slope_unit in MD. rewrite EK in MD. assert (Ra : reads h k (PArc a)) by (apply ref_in; rewrite EK; simpl; auto). assert (Rp : reads h k (PPoint p)) by (apply ref_in; rewrite EK; simpl; auto).
  assert (Rc : reads h k (PPoint (a_center (getA h a)))) by (exists (PArc a); rewrite EK; split; [simpl; auto | right; simpl; auto]).
  assert (Fw : finite64 (a_ea (getA h a))) by (destruct Sm as [(_ & R2 & _) _]; apply (R2 a Ra)). assert (EW : cea g a = value (a_ea (getA h a))) by apply (cea_ex L h).
  destruct (arc_x a p _ Ra Rc Rp Fw MD) as (V1 & V2 & V3). assert (V4 := arc_radial a p _ Ra Rc Rp Fw MD). assert (V5 := arc_angular a p _ Ra Rc Rp Fw MD). assert (V6 := arc_point a p _ Ra Rc Rp Fw MD).
  split; [|simpl; auto]. cbn [grad_rows rowsR exact_con]. unfold end_pt. cbn [fst snd]. rewrite EW. replace (a_center (getA H a)) with (a_center (getA h a)) by (symmetry; apply (center_ex L h)). apply near2; [|exact V6].
  constructor; [exact V1|]. constructor; [exact V2|]. constructor; [exact V4|]. constructor; [exact V3|]. constructor; [exact V5|]. constructor.
Qed.
Lemma rows_as a p : getK h k = ArcStartPointCoincident a p -> rows_ok (ArcStartPointCoincident a p).
Proof.
  intros EK. assert (MD := SD). unfold slope_unit in MD. rewrite EK in MD. assert (Ra : reads h k (PArc a)) by (apply ref_in; rewrite EK; simpl; auto). assert (Rp : reads h k (PPoint p)) by (apply ref_in; rewrite EK; simpl; auto).
  assert (Rc : reads h k (PPoint (a_center (getA h a)))) by (exists (PArc a); rewrite EK; split; [simpl; auto | right; simpl; auto]).
  assert (Fw : finite64 (a_sa (getA h a))) by (destruct Sm as [(_ & R2 & _) _]; apply (R2 a Ra)). assert (EW : csa g a = value (a_sa (getA h a))) by apply (csa_ex L h).
  destruct (arc_x a p _ Ra Rc Rp Fw MD) as (V1 & V2 & V3). assert (V4 := arc_radial a p _ Ra Rc Rp Fw MD). assert (V5 := arc_angular a p _ Ra Rc Rp Fw MD). assert (V6 := arc_point a p _ Ra Rc Rp Fw MD).
  split; [|simpl; auto]. cbn [grad_rows rowsR exact_con]. unfold start_pt. cbn [fst snd]. rewrite EW. replace (a_center (getA H a)) with (a_center (getA h a)) by (symmetry; apply (center_ex L h)). apply near2; [|exact V6].
  constructor; [exact V1|]. constructor; [exact V2|]. constructor; [exact V4|]. constructor; [exact V5|]. constructor; [exact V3|]. constructor.
Qed.
(** angles between lines *)
Section Angles.
Variables (l1 l2 : loc).
Let d1 := v2sub (line_end h l1) (line_start h l1).
Let d2 := v2sub (line_end h l2) (line_start h l2).
Let v1 := dirR g H l1.
Let v2 := dirR g H l2.
Hypothesis X1 : apv d1 v1 (len v1) (U * len v1 + 2 * eta).
Hypothesis X2 : apv d2 v2 (len v2) (U * len v2 + 2 * eta).
Hypothesis N1 : bp (-100) <= len v1.
Hypothesis N2 : bp (-100) <= len v2.
Hypothesis C1 : len v1 <= bp 105.
Hypothesis C2 : len v2 <= bp 105.
Hypothesis MD : / Rmin (len v1) (len v2) <= D.
Lemma ang_D : 2 / len v1 <= 2 * D /\ 2 / len v2 <= 2 * D /\ 0 < D /\ 0 < 2 / len v1 /\ 0 < 2 / len v2.
Proof.
  assert (P := bpow_gt_0 radix2 (-100)). assert (Q1 : / len v1 <= / Rmin (len v1) (len v2)) by (apply Rinv_le_contravar; [apply Rmin_glb_lt; lra | apply Rmin_l]).
  assert (Q2 : / len v2 <= / Rmin (len v1) (len v2)) by (apply Rinv_le_contravar; [apply Rmin_glb_lt; lra | apply Rmin_r]). assert (0 < / len v1) by (apply Rinv_0_lt_compat; lra). assert (0 < / len v2) by (apply Rinv_0_lt_compat; lra). unfold Rdiv. repeat split; lra.
Qed.
Lemma ang_row d v l e a b x y r : apv d v (len v) (U * len v + 2 * eta) -> bp (-100) <= len v -> len v <= bp 105 -> 0 < 2 / len v -> 2 / len v <= 2 * D ->
  rp e r 1 21 -> rp x a 1 9 -> rp y b 1 9 ->
  row_near B E (rowmul 4 (rowmul 2 (vscale e [x; y]) (normalize_gradient d)) end_minus_start) (snd (on_line l (ngrad v (r * a) (r * b)))).
Proof.
  intros X N C P2 HD He Hx Hy. destruct M_mid as (_ & _ & _ & _ & _ & _ & O & _).
  assert (K : forall z q, rp z q 1 9 -> rp (e *f z) (r * q) 1 32).
  { intros z q Hz. assert (Z := rp_mul L _ _ _ _ _ _ _ _ He Hz ltac:(lra) ltac:(lra)). rewrite Rmult_1_r in Z. eapply rp_c; [exact O | apply Z; auto; lra | lra]. }
  destruct (ngrad_rp L d v N C X _ _ _ _ (K _ _ Hx) (K _ _ Hy)) as (p & q & E1 & V1 & V2). change (vscale e [x; y]) with [e *f x; e *f y].
  change (rowmul 2 [e *f x; e *f y] (normalize_gradient d)) with (@rowmul _ (ArithF L) 2 [e *f x; e *f y] (normalize_gradient d)). 
  match goal with |- row_near _ _ (rowmul 4 ?z _) _ => replace z with [p; q] by (symmetry; exact E1) end.
  unfold on_line. cbn [snd]. apply (row_ems L); [apply (rp_near _ _ _ _ V1) | apply (rp_near _ _ _ _ V2)]; unfold B; lra.
Qed.
Lemma fin_dirs : v2finite (v2normalize d1) && v2finite (v2normalize d2) = true.
Proof. exact (proj2 (andb_true_iff _ _) (conj (v2fin L _ _ _ _ (normalize_ap L d1 v1 (conj N1 C1) X1)) (v2fin L _ _ _ _ (normalize_ap L d2 v2 (conj N2 C2) X2)))). Qed.
Lemma cross_rp : rp (fst (v2normalize d1) *f snd (v2normalize d2) -f snd (v2normalize d1) *f fst (v2normalize d2)) (crossR v1 v2 / (len v1 * len v2)) 1 21.
Proof.
  assert (Z := cross_ap L _ _ _ _ (normalize_ap L d1 v1 (conj N1 C1) X1) (normalize_ap L d2 v2 (conj N2 C2) X2)). assert (P := bpow_gt_0 radix2 (-100)).
  replace (crossR v1 v2 / (len v1 * len v2)) with (crossR (unit2 v1) (unit2 v2)) by (unfold crossR, unit2; cbn [fst snd]; field; lra). eapply ap_weaken; [exact Z | lra | lra].
Qed.
Lemma dot_rp : rp (v2dot (v2normalize d1) (v2normalize d2)) (dotR v1 v2 / (len v1 * len v2)) 1 21.
Proof.
  assert (Z := dot_ap L _ _ _ _ (normalize_ap L d1 v1 (conj N1 C1) X1) (normalize_ap L d2 v2 (conj N2 C2) X2)). assert (P := bpow_gt_0 radix2 (-100)).
  replace (dotR v1 v2 / (len v1 * len v2)) with (dotR (unit2 v1) (unit2 v2)) by (unfold dotR, unit2; cbn [fst snd]; field; lra). eapply ap_weaken; [exact Z | lra | lra].
Qed.
Lemma par_rows : rows_ok (ParallelLines l1 l2).
Proof.
  split; [|simpl; auto]. cbn [grad_rows rowsR exact_con]. fold d1 d2 v1 v2. rewrite fin_dirs. cbn [negb]. destruct ang_D as (D1 & D2 & DP & D3 & D4). destruct (unit_rp L d1 v1 N1 C1 X1) as (A1 & A2 & _). destruct (unit_rp L d2 v2 N2 C2 X2) as (A3 & A4 & _).
  apply near2; eapply (ang_row _ _ l1); eauto using cross_rp; apply (ap_neg L); assumption.
Qed.
Lemma perp_rows : rows_ok (PerpendicularLines l1 l2).
Proof.
  split; [|simpl; auto]. cbn [grad_rows rowsR exact_con]. fold d1 d2 v1 v2. rewrite fin_dirs. cbn [negb]. destruct ang_D as (D1 & D2 & DP & D3 & D4). destruct (unit_rp L d1 v1 N1 C1 X1) as (A1 & A2 & _). destruct (unit_rp L d2 v2 N2 C2 X2) as (A3 & A4 & _).
  apply near2; eapply (ang_row _ _ l1); eauto using dot_rp.
Qed.
End Angles.
Lemma rows_all : exists Rs, (length Rs <= 2)%nat /\ rows_near B E (grad_rows h (getK h k)) Rs /\ grad_rows H (getK H k) = map toFin Rs.
Proof.
  apply rows_from. assert (Sm' := Sm). destruct Sm' as [(_ & _ & _ & R4) _]. assert (MD := SD). unfold slope_unit in MD. fold H in R4, MD. fold g in R4, MD.
  destruct (getK h k) as [p1 p2 pm d|a p|a p|p1 p2 d|p1 p2 d|p1 p2 d|p x y|l1 l2|l|l|l1 l2|l1 l2] eqn:EK.
  - contradiction.
  - now apply rows_ae.
  - now apply rows_as.
  - now apply rows_dist.
  - now apply rows_hor.
  - now apply rows_ver.
  - now apply rows_fix.
  - now apply rows_eq.
  - now apply rows_hl.
  - now apply rows_vl.
  - destruct R4 as [N1 N2]. fold H in N1, N2. fold g in N1, N2. rewrite p100 in N1, N2. destruct (line_dir l1) as (X1 & C1 & _); [rewrite EK; simpl; auto|]. destruct (line_dir l2) as (X2 & C2 & _); [rewrite EK; simpl; auto|]. now apply par_rows.
  - destruct R4 as [N1 N2]. fold H in N1, N2. fold g in N1, N2. rewrite p100 in N1, N2. destruct (line_dir l1) as (X1 & C1 & _); [rewrite EK; simpl; auto|]. destruct (line_dir l2) as (X2 & C2 & _); [rewrite EK; simpl; auto|]. now apply perp_rows.
Qed.
End Rows.
