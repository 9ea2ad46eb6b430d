(** * A libm and a sketch that meet the hypotheses of C68 *)
From Coq Require Import List ZArith NArith Arith Bool Reals Lra Lia Permutation Floats.SpecFloat.
From Flocq Require Import Core.Core IEEE754.BinarySingleNaN.
From Verif Require Import Arith ArithR ArithF Vec Prim Cons Sketch Spec SpecLemmas FloatLemmas FloatSpec FloatBound Decomp DecompSpec DecompLemmas
  WalkLemmas OrderLemmas ExactLemmas ExactSpec ExactDecomp OctLemmas DecompWitness DecompExamples DecompForms RoundSpec RoundPi RoundTurn RoundRem RoundAngle RoundWalk RoundArea.
Import ListNotations.
Local Open Scope R_scope.

(** atan2 rounded to a multiple of 2^-50 *)
Definition fix50 (x : R) : spec_float := SpecFloat.binary_normalize 53 1024 (ZnearestE (x * 2 ^ 50)) (-50) false.
Definition round_libm : libm := mkLibm (fun x => x) (fun x => x) (fun x => x) (fun y x => fix50 (atan2R (value y) (value x))).
Lemma fix50_ok x : - PI <= x <= PI -> finite64 (fix50 x) /\ Rabs (value (fix50 x)) <= P /\ Rabs (value (fix50 x) - x) <= / 2 ^ 51.
Proof.
  intros B. pose proof P_pi as PP. pose proof P_range as PR. set (z := ZnearestE (x * 2 ^ 50)).
  assert (E50 : 2 ^ 50 = 1125899906842624) by (simpl; lra). assert (EP : P * 2 ^ 50 = 3537118876014220).
  { unfold P, pi64. rewrite value_fin. change (bp (-51)) with (/ 2251799813685248). rewrite E50. lra. }
  assert (EV : V * 2 ^ 50 = / 4) by (unfold V; simpl; lra).
  assert (Hz : Rabs (x * 2 ^ 50 - IZR z) <= / 2) by apply Znearest_half. apply Rabs_le_inv in Hz.
  assert (PB : PI * 2 ^ 50 <= 3537118876014220 + / 4). { rewrite E50 in *. lra. }
  assert (Bz : (Z.abs z <= 3537118876014220)%Z).
  { assert (L1 : IZR z < 3537118876014221) by (rewrite E50 in *; lra). assert (L2 : -3537118876014221 < IZR z) by (rewrite E50 in *; lra). apply lt_IZR in L1, L2. lia. }
  assert (Rep : bp (-50) = / 2 ^ 50) by (change (bp (-50)) with (/ 1125899906842624); now rewrite E50).
  assert (G : generic_format radix2 fexp64 (F2R (Float radix2 z (-50)))).
  { apply (generic_format_FLT radix2 (-1074) 53). apply (FLT_spec _ _ _ _ (Float radix2 z (-50))); cbn [Fnum Fexp]; auto; [|lia]. eapply Z.le_lt_trans; [exact Bz | reflexivity]. }
  pose proof (binary_normalize_correct 53 1024 Hprec64 Hmax64 mode_NE z (-50) false) as C. cbv zeta in C.
  change (round radix2 (SpecFloat.fexp 53 1024) (round_mode mode_NE) (F2R (Float radix2 z (-50)))) with (rnd64 (F2R (Float radix2 z (-50)))) in C.
  assert (Er : rnd64 (F2R (Float radix2 z (-50))) = F2R (Float radix2 z (-50))) by (apply round_generic; auto with typeclass_instances).
  assert (Ef : F2R (Float radix2 z (-50)) = IZR z * / 2 ^ 50) by (unfold F2R; cbn [Fnum Fexp]; now rewrite Rep).
  apply Z.abs_le in Bz as [B1 B2]. apply IZR_le in B1, B2. rewrite opp_IZR in B1.
  assert (Ba : Rabs (IZR z * / 2 ^ 50) <= P). { apply Rabs_le. rewrite E50 in *. lra. }
  rewrite Er, Ef in C. rewrite Rlt_bool_true in C.
  2:{ eapply Rle_lt_trans; [exact Ba|]. apply Rlt_trans with (bp 2); [change (bp 2) with 4; lra | apply bp_lt; lia]. }
  destruct C as (C1 & C2 & _). unfold fix50. fold z. rewrite bn_equiv. split; [split; [apply valid_B2SF | now rewrite fin_B2SF]|].
  rewrite value_r64, r64_B2SF, C1. split; auto. apply Rabs_le. assert (E51 : / 2 ^ 51 = / 2 * / 2 ^ 50) by (simpl; lra). rewrite E51, E50 in *. lra.
Qed.
Lemma round_accurate : accurate_atan2 round_libm.
Proof.
  intros y x _ _ _ r. destruct (fix50_ok _ (atan2R_range (value y) (value x))) as (F1 & F2 & F3). split; [exact F1|]. split; [exact F2|]. exists 0%Z.
  rewrite Rmult_0_r, Rplus_0_r. eapply Rle_trans; [exact F3|]. simpl. lra.
Qed.

(** ** Octilinear sketches *)
Section OctRound.
Variables (pts : list (Z * Z)) (lns : list (nat * nat)).
Hypothesis OK : zok pts lns = true.
Definition zcod (l : nat * nat) : Z := match zcode (fst (zP pts (snd l)) - fst (zP pts (fst l))) (snd (zP pts (snd l)) - snd (zP pts (fst l))) with Some k => k | None => 0%Z end.
Definition zapart : bool := let D := zD lns in forallb (fun i => forallb (fun j => Nat.eqb i j ||
  negb (zeq2 (zP pts (fst (nth i D (0, 0)%nat))) (zP pts (fst (nth j D (0, 0)%nat)))) || negb (Z.eqb ((zcod (nth i D (0, 0)%nat) - zcod (nth j D (0, 0)%nat)) mod 8) 0)) (seq 0 (length D))) (seq 0 (length D)).
Lemma apart_oct : zapart = true -> directions_apart (oct_heap pts lns) (oct_sketch pts lns).
Proof.
  intros Z i j a b N Ea Eb Ef k. rewrite (directed_oct pts lns) in Ea, Eb. rewrite nth_error_map in Ea, Eb.
  destruct (nth_error (zD lns) i) as [l|] eqn:Ei; [|discriminate]. destruct (nth_error (zD lns) j) as [m|] eqn:Ej; [|discriminate].
  injection Ea as <-. injection Eb as <-.
  assert (Hl : In l (zD lns)) by (eapply nth_error_In; eauto). assert (Hm : In m (zD lns)) by (eapply nth_error_In; eauto).
  assert (Di : forall l, In l (zD lns) -> direction (oct_heap pts lns) (sg l) = IZR (zcod l) * (PI / 4) /\ from_pt (oct_heap pts lns) (sg l) = (IZR (fst (zP pts (fst l))), IZR (snd (zP pts (fst l))))).
  { intros x Hx. destruct (ok_in pts lns OK x Hx) as (_ & _ & c & Ec). unfold direction, from_pt, to_pt. rewrite (start_oct pts lns OK), (end_oct pts lns OK) by auto. cbn [rP fst snd vx].
    split; auto. rewrite <- !minus_IZR. apply zcode_atan. unfold zcod. now rewrite Ec. }
  destruct (Di l Hl) as [D1 F1]. destruct (Di m Hm) as [D2 F2]. rewrite F1, F2 in Ef. injection Ef as E1 E2. apply eq_IZR in E1, E2.
  unfold zapart in Z. rewrite forallb_forall in Z. specialize (Z i). rewrite forallb_forall in Z.
  assert (Li : (i < length (zD lns))%nat) by (apply nth_error_Some; congruence). assert (Lj : (j < length (zD lns))%nat) by (apply nth_error_Some; congruence).
  specialize (Z ltac:(apply in_seq; lia) j ltac:(apply in_seq; lia)). rewrite (nth_error_nth _ _ _ Ei), (nth_error_nth _ _ _ Ej) in Z.
  apply orb_true_iff in Z as [Z|Z]; [apply orb_true_iff in Z as [Z|Z]|].
  - apply Nat.eqb_eq in Z. contradiction.
  - apply negb_true_iff in Z. unfold zeq2 in Z. rewrite E1, E2, !Z.eqb_refl in Z. discriminate.
  - apply negb_true_iff, Z.eqb_neq in Z. rewrite D1, D2. replace (IZR (zcod l) * (PI / 4) - IZR (zcod m) * (PI / 4) + 2 * PI * IZR k) with (IZR (zcod l - zcod m + 8 * k) * (PI / 4)) by (rewrite plus_IZR, minus_IZR, mult_IZR; field).
    assert (NZ : (zcod l - zcod m + 8 * k <> 0)%Z). { intros Q. apply Z. replace (zcod l - zcod m)%Z with ((- k) * 8)%Z by lia. apply Z.mod_mul. lia. }
    set (c := (zcod l - zcod m + 8 * k)%Z) in *. rewrite Rabs_mult. pose proof P_pi. pose proof P_range. rewrite (Rabs_pos_eq (PI / 4)) by lra.
    assert (1 <= Rabs (IZR c)). { rewrite <- abs_IZR. apply IZR_le. lia. } assert (/ 2 ^ 46 < / 2) by (simpl; lra). nra.
Qed.
Definition zclear : bool := forallb (fun w => negb (Z.eqb (zarea pts lns w) 0) && Nat.leb (length w) 20) (snd (zloop pts lns)).
Lemma clear_oct M : turns_ok (oct_heap pts lns) (directed (oct_heap pts lns) (oct_sketch pts lns)) -> 0 <= M <= 1000 -> zclear = true -> areas_clear M (oct_heap pts lns) (oct_sketch pts lns).
Proof.
  intros TO BM Z ws w Aw Hw. destruct (ring_loop_greedy (oct_heap pts lns) (map sg (zD lns))) as (ws' & El & G). assert (El' := El). rewrite (loop_oct pts lns OK) in El'. injection El' as _ E'.
  rewrite (directed_oct pts lns) in *. pose proof (greedy_all strict_weak_R _ _ TO _ _ (le_n _) G) as Aw'. pose proof (all_walks_fun _ _ _ _ Aw _ Aw') as E. subst ws.
  apply in_map_iff in Hw as (w0 & <- & Hw). destruct (greedy_nodup _ _ _ _ G) as [_ C]. rewrite Forall_forall in C.
  rewrite at_positions_map by (apply Forall_forall; intros x Hx; apply C, in_concat; eauto). rewrite <- E' in Hw. apply in_map_iff in Hw as (v & <- & Hv).
  rewrite !map_map, map_length. unfold zclear in Z. rewrite forallb_forall in Z. specialize (Z _ Hv). apply andb_true_iff in Z as [Z1 Z2]. apply negb_true_iff, Z.eqb_neq in Z1. apply Nat.leb_le in Z2.
  pose proof (zloop_bound pts lns OK) as B. rewrite Forall_forall in B. specialize (B _ Hv). pose proof (area_oct pts lns OK v B) as Ar.
  assert (Sf : Forall (seg_fin (oct_heap pts lns)) (map (fun j => sg (zl lns j)) v)).
  { apply Forall_forall. intros x Hx. apply in_map_iff in Hx as (j & <- & Hj). rewrite Forall_forall in B. assert (Hi := zl_in lns j (B _ Hj)).
    unfold seg_fin, from_pt, to_pt, seg_end_angle. rewrite (start_oct pts lns OK), (end_oct pts lns OK) by auto. split; [reflexivity|]. split; [reflexivity|].
    unfold seg_start_angle, sg. change (pdata (oct_heap pts lns) (l_start _)) with (get_start (oct_heap pts lns) (sg (zl lns j))). change (pdata (oct_heap pts lns) (l_end _)) with (get_end (oct_heap pts lns) (sg (zl lns j))).
    rewrite (start_oct pts lns OK), (end_oct pts lns OK) by auto. split; eexists; reflexivity. }
  unfold zring in Ar. rewrite area_R in Ar by auto. injection Ar as Ar. change (fun x : nat => snd (zs lns x)) with (fun j : nat => sg (zl lns j)). rewrite Ar.
  unfold Rdiv at 2. rewrite Rabs_mult, (Rabs_pos_eq (/ 2)) by lra. assert (1 <= Rabs (IZR (zarea pts lns v))) by (rewrite <- abs_IZR; apply IZR_le; lia).
  apply le_INR in Z2. assert (E20 : INR 20 = 20) by (simpl; lra). rewrite E20 in Z2. pose proof (pos_INR (length v)). set (n := INR (length v)) in *.
  assert (Q1 : (n + 4) ^ 2 <= 576) by (simpl; nra). assert (Q2 : M ^ 2 <= 1000000) by (simpl; nra). assert (Q3 : (n + 4) ^ 2 * M ^ 2 <= 576 * 1000000) by (apply Rmult_le_compat; auto; apply pow2_ge_0).
  apply Rle_lt_trans with (576 * 1000000 / 2 ^ 52); [apply Rmult_le_compat_r; [left; apply Rinv_0_lt_compat, pow_lt; lra | exact Q3]|]. simpl. lra.
Qed.
End OctRound.

(** two squares of side 4 with a common edge *)
Definition two64 : heap spec_float :=
  mkHeap (map (fun p => mkPoint (of_Z64 (fst p)) (of_Z64 (snd p)) (of_Z64 0) (of_Z64 0)) sq_pts) (map (fun l => mkLine (fst l) (snd l)) sq_lns) [] [] [].
Lemma two64_exact : exact_heap two64 = two_heap.
Proof.
  unfold exact_heap, two64, two_heap, oct_heap. cbn [h_pts h_lines h_arcs h_circs h_cons map]. f_equal. unfold Point2_new. rewrite f0_R.
  assert (Z : forall z, In z [0; 4; 8]%Z -> exact64 (of_Z64 z) = Fin (IZR z)).
  { intros z [<-|[<-|[<-|[]]]].
    - reflexivity.
    - change (of_Z64 4) with (S754_finite false 4503599627370496 (-50)). cbn [exact64]. rewrite value_fin. f_equal. change (bp (-50)) with (/ 1125899906842624). lra.
    - change (of_Z64 8) with (S754_finite false 4503599627370496 (-49)). cbn [exact64]. rewrite value_fin. f_equal. change (bp (-49)) with (/ 562949953421312). lra. }
  cbn [sq_pts map fst snd]. unfold exact_point. cbn [p_x p_y p_gx p_gy]. rewrite !Z by (simpl; tauto). reflexivity.
Qed.
Lemma two64_valid L : @valid _ (ArithF L) two64 two_sketch.
Proof. destruct two_valid as [V1 V2 V3 V4 V5 V6]. constructor; auto.
  destruct V4 as (H1 & _). split; [exact H1|]. repeat split; intros l Hl; simpl in Hl; lia. Qed.
Lemma two64_tame L : tame L 8 two64 two_sketch.
Proof.
  split; [|split].
  - intros a Ha. apply (valid_reg _ _ _ two_valid) in Ha. simpl in Ha. repeat (destruct Ha as [Ha|Ha]; [discriminate|]). destruct Ha.
  - intros l p Hl Hp. pose (A := ArithF L). assert (Hpts : exists z w, getP two64 p = mkPoint (of_Z64 z) (of_Z64 w) (of_Z64 0) (of_Z64 0) /\ In z [0; 4; 8]%Z /\ In w [0; 4; 8]%Z).
    { apply (valid_reg _ _ _ two_valid) in Hl. simpl in Hl.
      repeat (destruct Hl as [Hl|Hl]; [try discriminate; injection Hl as <-; destruct Hp as [->| ->]; do 2 eexists; (split; [reflexivity | simpl; tauto])|]). destruct Hl. }
    destruct Hpts as (z & w & Eg & Hz & Hw). change (ArithF L) with A. cbv zeta. rewrite Eg. cbn [p_x p_y p_gx p_gy].
    assert (Z : forall z, In z [0; 4; 8]%Z -> finite64 (of_Z64 z) /\ Rabs (value (of_Z64 z)) <= 8).
    { intros y [<-|[<-|[<-|[]]]].
      - split; [split; reflexivity|]. simpl. rewrite Rabs_R0. lra.
      - split; [split; reflexivity|]. change (of_Z64 4) with (S754_finite false 4503599627370496 (-50)). rewrite value_fin. change (bp (-50)) with (/ 1125899906842624). apply Rabs_le. lra.
      - split; [split; reflexivity|]. change (of_Z64 8) with (S754_finite false 4503599627370496 (-49)). rewrite value_fin. change (bp (-49)) with (/ 562949953421312). apply Rabs_le. lra. }
    destruct (Z z Hz), (Z w Hw), (Z 0%Z ltac:(simpl; tauto)). tauto.
  - intros c Hc. apply (valid_reg _ _ _ two_valid) in Hc. simpl in Hc. repeat (destruct Hc as [Hc|Hc]; [discriminate|]). destruct Hc.
Qed.
Lemma two64_apart : directions_apart (exact_heap two64) two_sketch.
Proof. rewrite two64_exact. apply apart_oct; [exact two_ok | vm_compute; reflexivity]. Qed.
Lemma two64_clear : areas_clear 8 (exact_heap two64) two_sketch.
Proof. rewrite two64_exact. apply clear_oct; [exact two_ok | exact (geo_turns_ok _ _ two_valid two_finite) | lra | vm_compute; reflexivity]. Qed.
Lemma pow400 : / 2 ^ 400 <= 8 <= 2 ^ 400.
Proof. assert (1 <= 2 ^ 397) by (apply pow_R1_Rle; lra). replace (2 ^ 400) with (2 ^ 397 * 8) by (replace 400%nat with (397 + 3)%nat by reflexivity; rewrite pow_add; simpl; lra).
  split; [|lra]. apply Rle_trans with 1; [|lra]. rewrite <- Rinv_1. apply Rinv_le_contravar; lra. Qed.
