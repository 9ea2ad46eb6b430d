(** * Signs of binary64 areas (proofs for C68) *)
From Coq Require Import List ZArith NArith Arith Bool Reals Lra Lia Permutation Floats.SpecFloat.
From Flocq Require Import Core.Core IEEE754.BinarySingleNaN Relative.
From Verif Require Import Arith ArithR ArithF Vec Prim Cons Sketch Spec SpecLemmas FloatLemmas FloatSpec FloatBound Decomp DecompSpec DecompLemmas
  ExactLemmas ExactSpec ExactDecomp RoundSpec RoundTurn RoundRem RoundAngle RoundWalk.
Import ListNotations.
Local Open Scope R_scope.

#[local] Instance Hp64' : FLX.Prec_gt_0 53 := eq_refl.
#[local] Instance Hm64' : Prec_lt_emax 53 1024 := eq_refl.
#[local] Instance Hve' : Valid_exp fexp64 := fexp_correct 53 1024 Hp64'.

Definition eta : R := bp (-1075).
Lemma rnd_std x : Rabs (rnd64 x - x) <= U * Rabs x + eta.
Proof.
  destruct (error_N_FLT radix2 (-1074) 53 eq_refl (fun x => negb (Z.even x)) x) as (e & t & He & Ht & _ & E).
  change (rnd64 x) with (round radix2 (FLT_exp (-1074) 53) (Znearest (fun x => negb (Z.even x))) x). rewrite E.
  replace (x * (1 + e) + t - x) with (x * e + t) by ring. eapply Rle_trans; [apply Rabs_triang|]. rewrite Rabs_mult.
  assert (H1 : Rabs e <= U). { eapply Rle_trans; [exact He|]. unfold U. change (bp (-53 + 1)) with (/ 4503599627370496). simpl. lra. }
  assert (H2 : Rabs t <= eta). { eapply Rle_trans; [exact Ht|]. unfold eta. replace (-1075)%Z with (-1 + -1074)%Z by lia. rewrite bpow_plus. change (bp (-1)) with (/ 2). lra. }
  pose proof (Rabs_pos x). nra.
Qed.
Lemma pow_bp n : (2 ^ n)%R = bp (Z.of_nat n). Proof. rewrite bpow_powerRZ, <- pow_powerRZ. reflexivity. Qed.

Section Area.
Variable L : libm.
#[local] Instance AF : Arith spec_float := ArithF L.
Variables (M : R) (h : heap spec_float).
Hypothesis M1 : / 2 ^ 400 <= M.
Hypothesis M2 : M <= 2 ^ 400.
Let H := exact_heap h.
Let N := M * M.
Let e := U * N.

Lemma U_pos : 0 < U < / 1000. Proof. unfold U. simpl. lra. Qed.
Lemma M_bp : bp (-400) <= M <= bp 400.
Proof. rewrite pow_bp in M1, M2. split; auto. Qed.
Lemma N_bp : bp (-800) <= N <= bp 800.
Proof.
  pose proof M_bp as [A B]. pose proof (bpow_gt_0 radix2 (-400)). unfold N. replace (-800)%Z with (-400 + -400)%Z by lia. replace 800%Z with (400 + 400)%Z by lia. rewrite !bpow_plus.
  split; apply Rmult_le_compat; lra.
Qed.
Lemma N_pos : 0 < N. Proof. pose proof N_bp. pose proof (bpow_gt_0 radix2 (-800)). lra. Qed.
Lemma U_bp : U = bp (-53). Proof. unfold U. rewrite pow_bp. change (-53)%Z with (Z.opp 53). now rewrite bpow_opp. Qed.
Lemma eta_small : 0 < eta <= U * e.
Proof.
  split; [apply bpow_gt_0|]. unfold eta, e. rewrite U_bp. pose proof N_bp as [A _].
  apply Rle_trans with (bp (-53) * (bp (-53) * bp (-800))); [rewrite <- !bpow_plus; apply bpow_le; lia|].
  apply Rmult_le_compat_l; [apply bpow_ge_0|]. apply Rmult_le_compat_l; [apply bpow_ge_0 | exact A].
Qed.
Lemma e_small : 0 < e <= N / 1000.
Proof. pose proof N_pos. pose proof U_pos. unfold e. split; nra. Qed.
Definition crs (g : seg spec_float) : R := crossR (from_pt H (exact_seg g)) (to_pt H (exact_seg g)).
Definition trm (g : seg spec_float) : spec_float := let st := get_start h g in let en := get_end h g in fst st *f snd en -f fst en *f snd st.
Lemma mul_bd a b : finite64 a -> finite64 b -> Rabs (value a) <= M -> Rabs (value b) <= M ->
  finite64 (SFmul 53 1024 a b) /\ Rabs (value a * value b) <= N /\ Rabs (value (SFmul 53 1024 a b) - value a * value b) <= e + U * e.
Proof.
  intros Fa Fb Ba Bb. pose proof M_bp as MB. pose proof (bpow_gt_0 radix2 (-400)).
  assert (B : Rabs (value a * value b) <= N). { rewrite Rabs_mult. unfold N. apply Rmult_le_compat; auto using Rabs_pos. }
  destruct (mul_real a b Fa Fb) as [R E].
  { rewrite <- !value_r64. apply Rle_lt_trans with (bp 800); [|apply bp_lt; lia]. apply rnd_le; [lia|]. pose proof N_bp. lra. }
  split; auto. split; auto. rewrite (value_r64 (SFmul _ _ _ _)), E, <- !value_r64. eapply Rle_trans; [apply rnd_std|]. pose proof eta_small. pose proof U_pos. unfold e in *. nra.
Qed.
Lemma term_bd g : ln_ok L M h g -> finite64 (trm g) /\ Rabs (value (trm g) - crs g) <= 5 * e /\ Rabs (value (trm g)) <= 3 * N /\ Rabs (crs g) <= 2 * N.
Proof.
  intros Hg. assert (C : crs g = value (fst (get_start h g)) * value (snd (get_end h g)) - value (fst (get_end h g)) * value (snd (get_start h g))).
  { unfold crs, H. rewrite (from_ex L M h g Hg), (to_ex L M h g Hg). unfold crossR. cbn [fst snd]. apply f_equal, Rmult_comm. }
  rewrite C. clear C. unfold trm. destruct Hg as (l & -> & (A1 & A2 & _ & _ & A3 & A4) & (B1 & B2 & _ & _ & B3 & B4)). cbn [get_start get_end] in *. unfold pdata in *. cbn [fst snd p_data] in *.
  set (sx := p_x (getP h (l_start l))) in *. set (sy := p_y (getP h (l_start l))) in *. set (ex := p_x (getP h (l_end l))) in *. set (ey := p_y (getP h (l_end l))) in *.
  destruct (mul_bd sx ey) as (F1 & C1 & E1); auto. destruct (mul_bd ex sy) as (F2 & C2 & E2); auto.
  change (@fmul _ AF) with (SFmul 53 1024). change (@fsub _ AF) with (SFsub 53 1024). set (p := SFmul 53 1024 sx ey) in *. set (q := SFmul 53 1024 ex sy) in *.
  set (a := value sx * value ey) in *. set (b := value ex * value sy) in *. pose proof e_small as ES. pose proof eta_small as TS. pose proof U_pos as UP.
  assert (Ue : 0 < U * e <= e / 1000) by nra. apply Rabs_le_inv in C1, C2, E1, E2.
  assert (Bd : Rabs (value p - value q) <= 2 * N + 2 * e + 2 * (U * e)) by (apply Rabs_le; lra).
  destruct (sub_real p q F1 F2) as [R E].
  { rewrite <- !value_r64. apply Rle_lt_trans with (bp 802); [|apply bp_lt; lia]. apply rnd_le; [lia|]. pose proof N_bp.
    replace 802%Z with (2 + 800)%Z by lia. rewrite bpow_plus. change (bp 2) with 4. lra. }
  rewrite value_r64, E, <- !value_r64. pose proof (rnd_std (value p - value q)) as S. split; auto.
  assert (S' : Rabs (rnd64 (value p - value q) - (value p - value q)) <= 2 * e + 4 * (U * e) + eta).
  { eapply Rle_trans; [exact S|]. apply Rplus_le_compat_r. apply Rle_trans with (U * (2 * N + 2 * e + 2 * (U * e))); [apply Rmult_le_compat_l; lra|].
    replace (U * (2 * N + 2 * e + 2 * (U * e))) with (2 * e + 2 * (U * e) + 2 * (U * (U * e))) by (unfold e; ring). assert (U * (U * e) <= U * e) by nra. lra. }
  apply Rabs_le_inv in S'. split; [apply Rabs_le; lra|]. split; [apply Rabs_le; lra|]. apply Rabs_le; lra.
Qed.
Definition err (k : R) : R := e * (2 * k * k + 14 * k).
Lemma sum_bd : forall l k acc (A : R), Forall (ln_ok L M h) l -> finite64 acc -> 0 <= k -> Rabs A <= 2 * k * N -> Rabs (value acc - A) <= err k -> (k + INR (length l)) * U <= / 2 ->
  let r := fold_left (fun area g => area +f trm g) l acc in
  finite64 r /\ Rabs (value r - (A + fold_right (fun g a => crs g + a) 0 l)) <= err (k + INR (length l)).
Proof.
  pose proof e_small as ES. pose proof eta_small as TS. pose proof U_pos as UP. pose proof N_pos as NP.
  induction l as [|g l IH]; intros k acc A Hl Fa K0 BA EA KU.
  - cbn [fold_left fold_right length INR]. rewrite !Rplus_0_r. auto.
  - inversion Hl as [|? ? Hg Hl']; subst. cbn [fold_left fold_right]. destruct (term_bd g Hg) as (Ft & Et & Bt & Bc).
    cbn [length] in KU |- *. rewrite S_INR in KU |- *. pose proof (pos_INR (length l)) as LP.
    assert (Ue : 0 < U * e <= e / 1000) by nra. assert (kU : k * U <= / 2) by nra.
    assert (UE : U * err k <= e * (k + 7)). { unfold err. replace (U * (e * (2 * k * k + 14 * k))) with (e * (k * U * (2 * k + 14))) by ring. apply Rmult_le_compat_l; [lra|]. nra. }
    assert (EN : err k <= N * (k + 7)). { unfold err, e. replace (U * N * (2 * k * k + 14 * k)) with (N * (k * U * (2 * k + 14))) by ring. apply Rmult_le_compat_l; [lra|]. nra. }
    apply Rabs_le_inv in BA, EA, Et, Bt, Bc.
    assert (Bx : Rabs (value acc + value (trm g)) <= 2 * k * N + 3 * N + err k) by (apply Rabs_le; lra).
    assert (Big : 2 * k * N + 3 * N + err k <= bp 900).
    { apply Rle_trans with ((3 * k + 10) * N); [nra|]. replace 900%Z with (100 + 800)%Z by lia. rewrite bpow_plus. pose proof N_bp as [_ NB].
      apply Rmult_le_compat; try nra. rewrite U_bp in kU. apply (Rmult_le_compat_r (bp 53)) in kU; [|apply bpow_ge_0]. rewrite Rmult_assoc, <- bpow_plus in kU. simpl (-53 + 53)%Z in kU. change (bp 0) with 1 in kU. change (bp 53) with 9007199254740992 in kU.
      change (bp 100) with 1267650600228229401496703205376. lra. }
    destruct (add_real acc (trm g) Fa Ft) as [R E].
    { rewrite <- !value_r64. apply Rle_lt_trans with (bp 900); [|apply bp_lt; lia]. apply rnd_le; [lia|]. lra. }
    rewrite <- !value_r64 in E. pose proof (rnd_std (value acc + value (trm g))) as S.
    assert (S' : Rabs (rnd64 (value acc + value (trm g)) - (value acc + value (trm g))) <= e * (2 * k + 3) + e * (k + 7) + e).
    { eapply Rle_trans; [exact S|]. apply Rle_trans with (U * (2 * k * N + 3 * N + err k) + eta); [apply Rplus_le_compat_r, Rmult_le_compat_l; lra|].
      replace (U * (2 * k * N + 3 * N + err k)) with (e * (2 * k + 3) + U * err k) by (unfold e; ring). lra. }
    apply Rabs_le_inv in S'. change (acc +f trm g) with (SFadd 53 1024 acc (trm g)).
    destruct (IH (k + 1) (SFadd 53 1024 acc (trm g)) (A + crs g)) as [I1 I2]; auto.
    + lra.
    + apply Rabs_le. lra.
    + rewrite E. assert (X : err (k + 1) = err k + e * (4 * k + 16)) by (unfold err; ring). rewrite X. apply Rabs_le. split; nra.
    + lra.
    + split; auto. replace (A + (crs g + fold_right (fun g a => crs g + a) 0 l)) with (A + crs g + fold_right (fun g a => crs g + a) 0 l) by ring.
      replace (k + (INR (length l) + 1)) with (k + 1 + INR (length l)) by ring. exact I2.
Qed.
Lemma sum_le_n l : Forall (ln_ok L M h) l -> Rabs (fold_right (fun g a => crs g + a) 0 l) <= 2 * INR (length l) * N.
Proof.
  induction 1 as [|g l Hg Hl IH]; cbn [fold_right length].
  - rewrite Rabs_R0. simpl. lra.
  - destruct (term_bd g Hg) as (_ & _ & _ & Bc). rewrite S_INR. eapply Rle_trans; [apply Rabs_triang|]. lra.
Qed.
Lemma fold_area : forall l a, fold_left (fun area s => let st := get_start h s in let en := get_end h s in area +f (fst st *f snd en -f fst en *f snd st)) l a =
  fold_left (fun area g => area +f trm g) l a.
Proof. intros l a. reflexivity. Qed.
Lemma two_fin : finite64 (of_Z64 2) /\ value (of_Z64 2) = 2.
Proof. split; [split; reflexivity|]. change (of_Z64 2) with (S754_finite false 4503599627370496 (-51)). rewrite value_fin. change (bp (-51)) with (/ 2251799813685248). lra. Qed.
Lemma area_sign l : Forall (ln_ok L M h) l -> (INR (length l) + 4) ^ 2 * M ^ 2 / 2 ^ 52 < Rabs (shoelace H (map exact_seg l)) ->
  fgt (signed_area H (RSegments (map exact_seg l))) f0 = fgt (signed_area h (RSegments l)) f0.
Proof.
  intros Hl Cl. assert (ES : shoelace H (map exact_seg l) = fold_right (fun g a => crs g + a) 0 l / 2).
  { unfold shoelace. f_equal. clear. induction l as [|g l IH]; [reflexivity|]. cbn [map fold_right]. now rewrite IH. }
  rewrite area_R by (apply Forall_forall; intros x Hx; apply in_map_iff in Hx as (g & <- & Hg); rewrite Forall_forall in Hl; apply (seg_fin_ex L M h g); auto).
  rewrite ES in *. clear ES. pose proof (sum_le_n l Hl) as SN. set (S := fold_right (fun g a => crs g + a) 0 l) in *. set (n := INR (length l)) in *.
  assert (n0 : 0 <= n) by apply pos_INR. pose proof e_small as EP. pose proof U_pos as UP. pose proof N_pos as NP. pose proof eta_small as TS.
  assert (Thr : 4 * e * ((n + 4) * (n + 4)) < Rabs S).
  { replace ((n + 4) ^ 2 * M ^ 2 / 2 ^ 52) with (2 * e * ((n + 4) * (n + 4))) in Cl by (unfold e, N, U; simpl; field).
    unfold Rdiv in Cl. rewrite Rabs_mult, (Rabs_pos_eq (/ 2)) in Cl by lra. lra. }
  assert (nU : n * U <= / 2).
  { destruct (Rle_or_lt (n * U) (/ 2)) as [|G]; auto. exfalso. assert (Q : 4 * e * ((n + 4) * (n + 4)) < 2 * n * N) by lra. unfold e in Q.
    assert (4 * (U * N) * ((n + 4) * (n + 4)) = 2 * N * (2 * U * ((n + 4) * (n + 4)))) by ring. assert (n <= 2 * U * ((n + 4) * (n + 4))) by nra. nra. }
  destruct f0_fin as [Z1 Z2].
  pose proof (sum_bd l 0 (of_Z64 0) 0 Hl Z1 (Rle_refl 0)) as SB. rewrite Rabs_R0, Z2, Rminus_0_r, Rabs_R0, !Rplus_0_l in SB. fold n S in SB. cbv zeta in SB.
  assert (E0 : 0 <= err 0) by (unfold err; lra). destruct (SB ltac:(lra) E0 nU) as [Fr Er]. clear SB.
  unfold signed_area. rewrite fold_area. change (@f0 _ AF) with (of_Z64 0). set (r := fold_left (fun area g => area +f trm g) l (of_Z64 0)) in *.
  change (@f2 _ AF) with (of_Z64 2). change (@fdiv _ AF) with (SFdiv 53 1024). destruct two_fin as [W1 W2].
  assert (Lo : 64 * e <= Rabs S - err n) by (unfold err; nra).
  assert (Sm : Rabs (value r) <= bp 900).
  { apply Rle_trans with (Rabs S + err n). { pose proof (Rabs_triang (value r - S) S) as X. replace (value r - S + S) with (value r) in X by ring. lra. }
    assert (EN : err n <= N * (n + 7)). { unfold err, e. replace (U * N * (2 * n * n + 14 * n)) with (N * (n * U * (2 * n + 14))) by ring. apply Rmult_le_compat_l; [lra|]. nra. }
    apply Rle_trans with ((3 * n + 10) * N); [nra|]. replace 900%Z with (100 + 800)%Z by lia. rewrite bpow_plus. pose proof N_bp as [_ NB].
    apply Rmult_le_compat; try nra. rewrite U_bp in nU. apply (Rmult_le_compat_r (bp 53)) in nU; [|apply bpow_ge_0]. rewrite Rmult_assoc, <- bpow_plus in nU. simpl (-53 + 53)%Z in nU. change (bp 0) with 1 in nU. change (bp 53) with 9007199254740992 in nU.
    change (bp 100) with 1267650600228229401496703205376. lra. }
  destruct (div_real r (of_Z64 2) Fr W1) as [Fd Ed].
  { rewrite <- value_r64, W2. lra. }
  { rewrite <- !value_r64, W2. apply Rle_lt_trans with (bp 900); [|apply bp_lt; lia]. apply rnd_le; [lia|]. unfold Rdiv. rewrite Rabs_mult, (Rabs_pos_eq (/ 2)) by lra. pose proof (Rabs_pos (value r)). lra. }
  rewrite <- !value_r64, W2 in Ed. unfold fgt. change (@flt _ AF) with SFltb. rewrite (ltb_val (of_Z64 0)), Z2, Ed by auto. rewrite f0_R, lt_R.
  apply Rabs_le_inv in Er. unfold Rabs in Lo. destruct (Rcase_abs S) as [Ng|Ps].
  - rewrite !Rltb_no; auto; [|lra]. rewrite <- (round_0 radix2 fexp64 (Znearest (fun x => negb (Z.even x)))). apply round_le; auto with typeclass_instances. lra.
  - unfold Rltb. destruct (Rlt_dec 0 (S / 2)) as [_|B]; [|exfalso; apply B; lra]. destruct (Rlt_dec 0 (rnd64 (value r / 2))) as [_|B]; auto. exfalso. apply B.
    apply Rlt_le_trans with (bp (-900)); [apply bpow_gt_0|]. apply rnd_ge; [lia|]. apply Rle_trans with e; [|lra].
    unfold e. rewrite U_bp. replace (-900)%Z with (-47 + (-53 + -800))%Z by lia. rewrite !bpow_plus. pose proof N_bp as [NB _].
    pose proof (bpow_gt_0 radix2 (-53)). pose proof (bpow_gt_0 radix2 (-800)). assert (bp (-47) <= 1) by (change 1 with (bp 0); apply bpow_le; lia). pose proof (bpow_gt_0 radix2 (-47)).
    apply Rle_trans with (1 * (bp (-53) * bp (-800))); [apply Rmult_le_compat_r; nra|]. rewrite Rmult_1_l. apply Rmult_le_compat_l; lra.
Qed.
(** circles *)
Lemma circle_sign c : finite64 (c_radius c) -> value (c_radius c) = 0 \/ / 2 ^ 400 <= Rabs (value (c_radius c)) <= 2 ^ 400 ->
  fgt (signed_area H (RCircle (exact_circle c))) f0 = fgt (signed_area h (RCircle c)) f0.
Proof.
  intros Fc Bc. unfold signed_area. cbn [exact_circle c_radius]. rewrite (exact_fin _ Fc). set (r := c_radius c) in *.
  change (@fmul _ AF) with (SFmul 53 1024). change (@fpi _ AF) with pi64. change (Fin (value r) *f Fin (value r) *f fpi) with (Fin (value r * value r * PI)).
  unfold fgt. change (@f0 _ AF) with (of_Z64 0). change (@flt _ AF) with SFltb. rewrite f0_R, lt_R. destruct f0_fin as [Z1 Z2]. pose proof PI_RGT_0 as PP.
  assert (B4 : Rabs (value r) <= bp 400). { destruct Bc as [-> | [_ B]]; [rewrite Rabs_R0; apply bpow_ge_0|]. now rewrite pow_bp in B. }
  assert (B8 : Rabs (value r * value r) <= bp 800) by (apply (prod_le 400 400); auto).
  destruct (mul_real r r Fc Fc) as [F2 E2]. { rewrite <- !value_r64. apply Rle_lt_trans with (bp 800); [|apply bp_lt; lia]. apply rnd_le; [lia | auto]. }
  rewrite <- !value_r64 in E2. assert (B8' : Rabs (value (SFmul 53 1024 r r)) <= bp 800) by (rewrite E2; apply rnd_le; [lia | auto]).
  pose proof P_range as PR. assert (BP : Rabs (value pi64) <= bp 2) by (fold P; change (bp 2) with 4; apply Rabs_le; lra).
  destruct (mul_real (SFmul 53 1024 r r) pi64 F2 pi_fin) as [F3 E3]. { rewrite <- !value_r64. apply Rle_lt_trans with (bp 802); [|apply bp_lt; lia]. apply rnd_le; [lia|]. apply (prod_le 800 2); auto. }
  rewrite <- !value_r64 in E3. rewrite (ltb_val (of_Z64 0)), Z2, E3 by auto. fold P. unfold Rltb. destruct Bc as [Z|[B _]].
  - rewrite E2, Z, !Rmult_0_l. rewrite !round_0 by auto with typeclass_instances. rewrite Rmult_0_l, round_0 by auto with typeclass_instances. reflexivity.
  - assert (Sq : bp (-800) <= value r * value r).
    { rewrite pow_bp in B. change (/ bp (Z.of_nat 400)) with (bp (-400)) in B. replace (value r * value r) with (Rabs (value r) * Rabs (value r)) by (rewrite <- Rabs_mult; apply Rabs_pos_eq; nra).
      replace (-800)%Z with (-400 + -400)%Z by lia. rewrite bpow_plus. pose proof (bpow_gt_0 radix2 (-400)). apply Rmult_le_compat; lra. }
    pose proof (bpow_gt_0 radix2 (-800)). assert (Rs : bp (-800) <= rnd64 (value r * value r)) by (apply rnd_ge; [lia | auto]).
    destruct (Rlt_dec 0 (value r * value r * PI)) as [_|X]; [|exfalso; apply X; nra].
    destruct (Rlt_dec 0 (rnd64 (value (SFmul 53 1024 r r) * P))) as [_|X]; auto. exfalso. apply X. apply Rlt_le_trans with (bp (-800)); auto. apply rnd_ge; [lia|]. rewrite E2. nra.
Qed.
End Area.

Lemma C68_lemma L M h s : let A := ArithF L in accurate_atan2 L -> valid h s -> tame L M h s -> / 2 ^ 400 <= M <= 2 ^ 400 -> directions_apart (exact_heap h) s -> areas_clear M (exact_heap h) s ->
  Permutation (fst (find_rings (exact_heap h) s)) (map exact_ring (fst (find_rings h s))) /\ snd (find_rings (exact_heap h) s) = map exact_seg (snd (find_rings h s)).
Proof.
  intros A AT V T [M1 M2] DA AC. split; [|exact (unused_ex L M h s V T M2 DA AT)]. apply (rings_ex L M h s V T M2 DA AT).
  - intros ws w Aw Hw l E Hl Ln. apply (area_sign L M h M1 M2 l Hl). pose proof (AC ws w Aw Hw) as K. rewrite E in K. rewrite Ln. exact K.
  - intros c Hc. destruct T as (_ & _ & T3). unfold circles in Hc. apply in_flat_map in Hc as ([id p] & Hp & Hc). cbn [snd] in Hc. destruct p as [l|l|l|l]; try contradiction.
    destruct Hc as [<-|[]]. assert (Hr : registered s (PCircle l)) by (apply (valid_reg _ _ _ V); now apply (in_map snd) in Hp).
    destruct (T3 l Hr) as [Fr Br]. apply (circle_sign L); auto.
Qed.
Lemma rem_exact_lemma (L : libm) x y : let A := ArithF L in finite64 x -> finite64 y -> value y <> 0 -> exact64 (frem x y) = frem (exact64 x) (exact64 y).
Proof.
  intros A Hx Hy Ny. destruct (rem_exact x y Hx Hy Ny) as [Fr Er]. rewrite (exact_fin _ Hx), (exact_fin _ Hy). change (frem x y) with (rem64 x y). rewrite (exact_fin _ Fr), Er.
  simpl. destruct (Req_EM_T _ _); [contradiction | reflexivity].
Qed.
Lemma turn_ex : finite64 pi64 /\ finite64 (SFopp pi64) /\ Rabs (value pi64) <= value pi64 /\ Rabs (value (SFopp pi64)) <= value pi64.
Proof.
  pose proof P_range as R. split; [exact pi_fin|]. split; [split; reflexivity|]. assert (E : value (SFopp pi64) = - P) by (unfold P; rewrite !value_r64; apply (opp_real pi64 pi_fin)).
  rewrite E. fold P. rewrite Rabs_Ropp. rewrite Rabs_pos_eq; lra.
Qed.
