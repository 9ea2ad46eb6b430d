(** * Norms in binary64 from below (proofs for C86) *)
From Coq Require Import List ZArith NArith Arith Bool Reals Lra Lia Floats.SpecFloat.
From Flocq Require Import Core.Core IEEE754.BinarySingleNaN.
From Verif Require Import Arith ArithR ArithF Vec FloatLemmas FloatSpec FloatBound ExactSpec RoundSpec RoundTurn RoundAngle RoundArea AccuracySpec AccuracyLemmas AccuracyForms.
Import ListNotations.
Local Open Scope R_scope.

Section Norm.
Variable L : libm.
#[local] Instance AF : Arith spec_float := ArithF L.
(** [x] is at least [a] up to [n] roundings and [c] underflows *)
Definition low (n : nat) (c : R) (x : spec_float) (a : R) : Prop := finite64 x /\ 0 <= value x /\ 0 <= a /\ 0 <= c /\ (1 - U) ^ n * a - c * eta <= value x.
Lemma q_range n : 0 <= (1 - U) ^ n <= 1.
Proof. pose proof U_small. split; [apply pow_le; lra|]. apply Rle_trans with (1 ^ n); [apply pow_incr; lra | rewrite pow1; lra]. Qed.
Lemma low_more n n' c c' x a : (n <= n')%nat -> c <= c' -> low n c x a -> low n' c' x a.
Proof.
  intros Hn Hc (F & P & A & C & Q). split; auto. split; auto. split; auto. split; [lra|]. pose proof eta_t as (T & _). eapply Rle_trans; [|exact Q].
  replace n' with (n + (n' - n))%nat by lia. rewrite pow_add. destruct (q_range n), (q_range (n' - n)).
  assert ((1 - U) ^ n * (1 - U) ^ (n' - n) <= (1 - U) ^ n) by nra. assert ((1 - U) ^ n * (1 - U) ^ (n' - n) * a <= (1 - U) ^ n * a) by (apply Rmult_le_compat_r; auto). nra.
Qed.
Lemma low_add n c d x y a b k : low n c x a -> low n d y b -> value x <= bp k -> value y <= bp k -> (0 <= k <= 1000)%Z ->
  low (S n) (c + d + 1) (x +f y) (a + b) /\ value (x +f y) <= bp (k + 1).
Proof.
  intros (F & P & A & C & Q) (F' & P' & A' & C' & Q') Bx By K. change (x +f y) with (SFadd 53 1024 x y). assert (S2 : value x + value y <= bp (k + 1)) by (rewrite bpow_plus; change (bp 1) with 2; lra).
  destruct (add_real x y F F') as [G E]; rewrite <- !value_r64 in *. { apply (big_lt' _ (k + 1)); try lia. rewrite Rabs_pos_eq; lra. }
  assert (R0 : 0 <= rnd64 (value x + value y)) by (apply rnd_nonneg; lra). split.
  - split; [exact G|]. rewrite E. split; auto. split; [lra|]. split; [lra|]. pose proof (rnd_std (value x + value y)) as S. rewrite (Rabs_pos_eq (value x + value y)) in S by lra. apply Rabs_le_inv in S.
    pose proof U_small as US. pose proof eta_t as (T & _). cbn [pow]. destruct (q_range n). apply Rle_trans with ((1 - U) * (value x + value y) - eta); [|lra].
    apply Rle_trans with ((1 - U) * ((1 - U) ^ n * a - c * eta + ((1 - U) ^ n * b - d * eta)) - eta); [|apply Rplus_le_compat_r, Rmult_le_compat_l; lra].
    assert (0 <= c * eta) by (apply Rmult_le_pos; lra). assert (0 <= d * eta) by (apply Rmult_le_pos; lra). nra.
  - rewrite E. rewrite <- (Rabs_pos_eq _ R0). apply rnd_le; [lia|]. rewrite Rabs_pos_eq; lra.
Qed.
(** adding a small number to a large one never exceeds the bound of the large one *)
Lemma low_sat n c d x y a b k : low n c x a -> low n d y b -> value x <= bp k -> value y <= bp 500 -> (600 <= k <= 1000)%Z ->
  low (S n) (c + d + 1) (x +f y) (a + b) /\ value (x +f y) <= bp k.
Proof.
  intros X Y Bx By K. split; [apply (low_add n c d x y a b k); auto; [|lia]; eapply Rle_trans; [exact By | apply bp_le; lia]|].
  destruct X as (F & P & _), Y as (F' & P' & _). assert (BX : bnd k x). { split; [exact F|]. rewrite <- value_r64, Rabs_pos_eq; lra. } assert (BY : bnd 500 y). { split; [exact F'|]. rewrite <- value_r64, Rabs_pos_eq; lra. }
  destruct (bnd_sat k 500 x y BX BY) as [_ B]; [lia | lia|]. rewrite <- value_r64 in B. eapply Rle_trans; [apply Rle_abs | exact B].
Qed.
Definition small_sq (p : list spec_float) (w : list R) : Prop := Forall2 (fun x a => low 1 1 x a /\ value x <= bp 500) p w.
Lemma fold_low p w : small_sq p w -> forall n c acc a, (1 <= n)%nat -> low n c acc a -> value acc <= bp 960 ->
  low (n + length p) (c + 2 * INR (length p)) (fold_left fadd p acc) (a + sumR w).
Proof.
  induction 1 as [|x b p w [X B] S IH]; intros n c acc a Hn A Ba; cbn [fold_left length].
  - cbn [sumR fold_right INR]. rewrite Nat.add_0_r, Rmult_0_r, !Rplus_0_r. exact A.
  - destruct (low_sat n c 1 acc x a b 960 A (low_more 1 n 1 1 x b Hn (Rle_refl 1) X) Ba B ltac:(lia)) as [A' B'].
    replace (n + Datatypes.S (length p))%nat with (Datatypes.S n + length p)%nat by lia. specialize (IH (Datatypes.S n) (c + 1 + 1) (acc +f x) (a + b) ltac:(lia) A' B').
    change (sumR (b :: w)) with (b + sumR w). rewrite <- Rplus_assoc. rewrite S_INR. replace (c + 2 * (INR (length p) + 1)) with (c + 1 + 1 + 2 * INR (length p)) by ring. exact IH.
Qed.
Lemma lanes_low k : forall p w, (length p <= k)%nat -> small_sq p w -> forall n a0 a1 a2 a3 a4 a5 a6 a7 b0 b1 b2 b3 b4 b5 b6 b7 c0 c1 c2 c3 c4 c5 c6 c7, (1 <= n)%nat ->
  low n c0 a0 b0 -> low n c1 a1 b1 -> low n c2 a2 b2 -> low n c3 a3 b3 -> low n c4 a4 b4 -> low n c5 a5 b5 -> low n c6 a6 b6 -> low n c7 a7 b7 ->
  value a0 <= bp 900 -> value a1 <= bp 900 -> value a2 <= bp 900 -> value a3 <= bp 900 -> value a4 <= bp 900 -> value a5 <= bp 900 -> value a6 <= bp 900 -> value a7 <= bp 900 ->
  low (n + 5 + length p) (c0 + c1 + c2 + c3 + c4 + c5 + c6 + c7 + 8 + 2 * INR (length p)) (sum_lanes a0 a1 a2 a3 a4 a5 a6 a7 p) (b0 + b1 + b2 + b3 + b4 + b5 + b6 + b7 + sumR w).
Proof.
  induction k as [k IH] using lt_wf_ind. intros p w Hk S n a0 a1 a2 a3 a4 a5 a6 a7 b0 b1 b2 b3 b4 b5 b6 b7 c0 c1 c2 c3 c4 c5 c6 c7 Hn A0 A1 A2 A3 A4 A5 A6 A7 V0 V1 V2 V3 V4 V5 V6 V7.
  assert (Short : low (n + 5 + length p) (c0 + c1 + c2 + c3 + c4 + c5 + c6 + c7 + 8 + 2 * INR (length p)) (fold_left fadd p (f0 +f (a0 +f a4) +f (a1 +f a5) +f (a2 +f a6) +f (a3 +f a7))) (b0 + b1 + b2 + b3 + b4 + b5 + b6 + b7 + sumR w)).
  { assert (Z : low (Datatypes.S n) 0 f0 0). { split; [split; reflexivity|]. change (value f0) with 0. rewrite Rmult_0_r, Rmult_0_l. lra. } assert (Zv : value f0 <= bp 901) by (change (value f0) with 0; apply bpow_ge_0).
    destruct (low_add n _ _ _ _ _ _ 900 A0 A4 V0 V4 ltac:(lia)) as [P1 Q1]. destruct (low_add n _ _ _ _ _ _ 900 A1 A5 V1 V5 ltac:(lia)) as [P2 Q2]. destruct (low_add n _ _ _ _ _ _ 900 A2 A6 V2 V6 ltac:(lia)) as [P3 Q3]. destruct (low_add n _ _ _ _ _ _ 900 A3 A7 V3 V7 ltac:(lia)) as [P4 Q4].
    destruct (low_add _ _ _ _ _ _ _ 901 Z P1 Zv Q1 ltac:(lia)) as [R1 T1].
    destruct (low_add _ _ _ _ _ _ _ 902 R1 (low_more (Datatypes.S n) (Datatypes.S (Datatypes.S n)) _ _ _ _ ltac:(lia) (Rle_refl _) P2) T1 ltac:(eapply Rle_trans; [exact Q2 | apply bp_le; lia]) ltac:(lia)) as [R2 T2].
    destruct (low_add _ _ _ _ _ _ _ 903 R2 (low_more (Datatypes.S n) (Datatypes.S (Datatypes.S (Datatypes.S n))) _ _ _ _ ltac:(lia) (Rle_refl _) P3) T2 ltac:(eapply Rle_trans; [exact Q3 | apply bp_le; lia]) ltac:(lia)) as [R3 T3].
    destruct (low_add _ _ _ _ _ _ _ 904 R3 (low_more (Datatypes.S n) (Datatypes.S (Datatypes.S (Datatypes.S (Datatypes.S n)))) _ _ _ _ ltac:(lia) (Rle_refl _) P4) T3 ltac:(eapply Rle_trans; [exact Q4 | apply bp_le; lia]) ltac:(lia)) as [R4 T4].
    assert (T5 := Rle_trans _ _ _ T4 (bp_le (904 + 1) 960 ltac:(lia))). assert (Fl := fold_low p w S (Datatypes.S (Datatypes.S (Datatypes.S (Datatypes.S (Datatypes.S n))))) _ _ _ ltac:(lia) R4 T5).
    replace (b0 + b1 + b2 + b3 + b4 + b5 + b6 + b7 + sumR w) with (0 + (b0 + b4) + (b1 + b5) + (b2 + b6) + (b3 + b7) + sumR w) by ring.
    eapply low_more; [| |exact Fl]; [lia | lra]. }
  assert (K := S). destruct S as [|p0 w0 p w [S0 B0] S]; [exact Short|]. destruct S as [|p1 w1 p w [S1 B1] S]; [exact Short|]. destruct S as [|p2 w2 p w [S2 B2] S]; [exact Short|]. destruct S as [|p3 w3 p w [S3 B3] S]; [exact Short|].
  destruct S as [|p4 w4 p w [S4 B4] S]; [exact Short|]. destruct S as [|p5 w5 p w [S5 B5] S]; [exact Short|]. destruct S as [|p6 w6 p w [S6 B6] S]; [exact Short|]. destruct S as [|p7 w7 p w [S7 B7] S]; [exact Short|]. clear Short K.
  cbn [sum_lanes]. pose proof (fun x a => low_more 1 n 1 1 x a Hn (Rle_refl 1)) as Up.
  destruct (low_sat n _ _ _ _ _ _ 900 A0 (Up _ _ S0) V0 B0 ltac:(lia)) as [X0 Y0]. destruct (low_sat n _ _ _ _ _ _ 900 A1 (Up _ _ S1) V1 B1 ltac:(lia)) as [X1 Y1]. destruct (low_sat n _ _ _ _ _ _ 900 A2 (Up _ _ S2) V2 B2 ltac:(lia)) as [X2 Y2]. destruct (low_sat n _ _ _ _ _ _ 900 A3 (Up _ _ S3) V3 B3 ltac:(lia)) as [X3 Y3].
  destruct (low_sat n _ _ _ _ _ _ 900 A4 (Up _ _ S4) V4 B4 ltac:(lia)) as [X4 Y4]. destruct (low_sat n _ _ _ _ _ _ 900 A5 (Up _ _ S5) V5 B5 ltac:(lia)) as [X5 Y5]. destruct (low_sat n _ _ _ _ _ _ 900 A6 (Up _ _ S6) V6 B6 ltac:(lia)) as [X6 Y6]. destruct (low_sat n _ _ _ _ _ _ 900 A7 (Up _ _ S7) V7 B7 ltac:(lia)) as [X7 Y7].
  cbn [length] in Hk |- *. assert (Z := IH (length p) ltac:(lia) p w (le_n _) S (Datatypes.S n) _ _ _ _ _ _ _ _ _ _ _ _ _ _ _ _ _ _ _ _ _ _ _ _ ltac:(lia) X0 X1 X2 X3 X4 X5 X6 X7 Y0 Y1 Y2 Y3 Y4 Y5 Y6 Y7).
  change (sumR (w0 :: w1 :: w2 :: w3 :: w4 :: w5 :: w6 :: w7 :: w)) with (w0 + (w1 + (w2 + (w3 + (w4 + (w5 + (w6 + (w7 + sumR w)))))))).
  replace (b0 + b1 + b2 + b3 + b4 + b5 + b6 + b7 + (w0 + (w1 + (w2 + (w3 + (w4 + (w5 + (w6 + (w7 + sumR w))))))))) with (b0 + w0 + (b1 + w1) + (b2 + w2) + (b3 + w3) + (b4 + w4) + (b5 + w5) + (b6 + w6) + (b7 + w7) + sumR w) by ring.
  eapply low_more; [| |exact Z]; [lia|]. rewrite !S_INR. lra.
Qed.
Lemma sq_low x : finite64 x -> Rabs (value x) <= bp 250 -> low 1 1 (x *f x) (value x * value x) /\ value (x *f x) <= bp 500.
Proof.
  intros F B. change (x *f x) with (SFmul 53 1024 x x). set (v := value x) in *. assert (V0 : 0 <= v * v) by nra. assert (VB : v * v <= bp 500).
  { replace (bp 500) with (bp 250 * bp 250) by (rewrite <- bpow_plus; reflexivity). rewrite <- (Rabs_pos_eq (v * v)), Rabs_mult by exact V0. apply Rmult_le_compat; auto; apply Rabs_pos. }
  destruct (mul_real x x F F) as [G E]; [|rewrite <- !value_r64 in E; fold v in E]. { rewrite <- !value_r64. fold v. apply (big_lt' _ 500); try lia. rewrite Rabs_pos_eq; auto. }
  rewrite E. assert (R0 : 0 <= rnd64 (v * v)) by now apply rnd_nonneg. split.
  - split; [exact G|]. rewrite E. split; auto. split; auto. split; [lra|]. pose proof (rnd_std (v * v)) as S. rewrite (Rabs_pos_eq (v * v)) in S by lra. apply Rabs_le_inv in S. cbn [pow]. lra.
  - rewrite <- (Rabs_pos_eq _ R0). apply rnd_le; [lia|]. rewrite Rabs_pos_eq; lra.
Qed.
Lemma squares g : Forall (fun x => finite64 x /\ Rabs (value x) <= bp 250) g -> small_sq (map2 fmul g g) (map2 Rmult (map value g) (map value g)).
Proof.
  induction 1 as [|x g [F B] HF IH]; [constructor|]. cbn [map map2 combine]. constructor; [exact (sq_low x F B) | exact IH].
Qed.
(** the Euclidean norm of the values is at most 8/7 of the computed one *)
Lemma norm_low g : Forall (fun x => finite64 x /\ Rabs (value x) <= bp 250) g -> INR (length g) <= 2 ^ 45 ->
  finite64 (vnorm g) /\ sqrt (dotL (map value g) (map value g)) <= 8 / 7 * value (vnorm g) + bp (-490).
Proof.
  intros HF N. set (w := map2 Rmult (map value g) (map value g)). set (S := sumR w). assert (Z : low 1 0 (f0 : spec_float) 0). { split; [split; reflexivity|]. change (value f0) with 0. rewrite Rmult_0_r, Rmult_0_l. lra. } assert (Zv : value (f0 : spec_float) <= bp 900) by (change (value f0) with 0; apply bpow_ge_0).
  assert (LM : length (map2 (@fmul _ AF) g g) = length g) by (clear; induction g; simpl; auto).
  assert (Q := lanes_low _ _ _ (le_n _) (squares g HF) 1 _ _ _ _ _ _ _ _ _ _ _ _ _ _ _ _ _ _ _ _ _ _ _ _ (le_n 1) Z Z Z Z Z Z Z Z Zv Zv Zv Zv Zv Zv Zv Zv).
  rewrite LM in Q. fold w S in Q. change (sum_lanes f0 f0 f0 f0 f0 f0 f0 f0 (map2 fmul g g)) with (vdot g g) in Q. replace (0 + 0 + 0 + 0 + 0 + 0 + 0 + 0 + S) with S in Q by ring. replace (0 + 0 + 0 + 0 + 0 + 0 + 0 + 0 + 8 + 2 * INR (length g)) with (8 + 2 * INR (length g)) in Q by ring.
  destruct Q as (F & P & S0 & C0 & Q). unfold vnorm. change (@fsqrt _ AF) with (SFsqrt 53 1024). set (d := value (vdot g g)) in *.
  destruct (sqrt_real (vdot g g) F) as [G E]; [rewrite <- value_r64; exact P|]. rewrite <- !value_r64 in E. fold d in E. split; [exact G|]. rewrite E. change (dotL (map value g) (map value g)) with S.
  pose proof U_small as US. pose proof eta_t as (T & _).
  assert (PB : 99 / 100 <= (1 - U) ^ (1 + 5 + length g)).
  { assert (Bn : forall n, 1 - INR n * U <= (1 - U) ^ n). { induction n as [|n IH]; [simpl; lra|]. rewrite S_INR. cbn [pow]. pose proof (pos_INR n). nra. }
    eapply Rle_trans; [|apply Bn]. assert (U * INR (length g) <= U * 2 ^ 45) by (apply Rmult_le_compat_l; lra). replace (U * 2 ^ 45) with (/ 256) in * by (unfold U; simpl; field). rewrite plus_INR. replace (INR (1 + 5)) with 6 by (simpl; ring). lra. }
  assert (SD : S <= 100 / 99 * (d + (8 + 2 * INR (length g)) * eta)) by nra.
  assert (ET : (8 + 2 * INR (length g)) * eta <= bp (-980) / 4).
  { apply Rle_trans with (bp 48 * eta). { apply Rmult_le_compat_r; [lra|]. apply Rle_trans with (8 + 2 * 2 ^ 45); [lra|]. change (bp 48) with 281474976710656. simpl. lra. }
    unfold eta. rewrite <- bpow_plus. replace (bp (-980) / 4) with (bp (-982)) by (replace (-980)%Z with (-982 + 2)%Z by lia; rewrite bpow_plus; change (bp 2) with 4; field). apply bp_le. lia. }
  assert (RT : sqrt S <= 101 / 99 * (sqrt d + bp (-490) / 2)).
  { apply Rsqr_incr_0_var; [|apply Rmult_le_pos; [lra|]; pose proof (sqrt_pos d); pose proof (bpow_gt_0 radix2 (-490)); lra]. unfold Rsqr. rewrite sqrt_sqrt by exact S0.
    assert (EQ : bp (-980) = bp (-490) * bp (-490)) by (rewrite <- bpow_plus; reflexivity). pose proof (sqrt_sqrt d P) as DD. pose proof (sqrt_pos d). pose proof (bpow_gt_0 radix2 (-490)). set (y := sqrt d) in *. set (z := bp (-490)) in *. nra. }
  pose proof (rnd_std (sqrt d)) as RS. rewrite (Rabs_pos_eq (sqrt d)) in RS by apply sqrt_pos. apply Rabs_le_inv in RS. pose proof (sqrt_pos d).
  assert (E4 : eta <= bp (-490) / 8). { unfold eta. replace (bp (-490) / 8) with (bp (-493)) by (replace (-490)%Z with (-493 + 3)%Z by lia; rewrite bpow_plus; change (bp 3) with 8; field). apply bp_le. lia. }
  assert (UD : U * sqrt d <= sqrt d / 1000000) by nra. lra.
Qed.
End Norm.
