(** * Losses and gradient rows of moderate constraints are bounded (proofs for C50) *)
From Coq Require Import List ZArith Bool Reals Lra Lia Floats.SpecFloat.
From Flocq Require Import Core.Core IEEE754.BinarySingleNaN.
From Verif Require Import Arith Vec Prim Cons Sketch Solve Api Spec SerdeSpec ArithF FloatLemmas FloatSpec FloatBound.
Import ListNotations.
Local Open Scope R_scope.

#[local] Instance Hp64' : FLX.Prec_gt_0 53 := eq_refl.
#[local] Instance Hm64' : Prec_lt_emax 53 1024 := eq_refl.
#[local] Instance Hve' : Valid_exp fexp64 := fexp_correct 53 1024 Hp64'.
Notation lFor := List.Forall.

Section FC.
Variable L : libm.
Hypothesis G : good_libm L.
#[local] Instance AF : Arith spec_float := ArithF L.

Lemma a_add a b x y : bnd a x -> bnd b y -> inr (Z.max a b + 1) = true -> bnd (Z.max a b + 1) (x +f y). Proof. apply bnd_add. Qed.
Lemma a_sub a b x y : bnd a x -> bnd b y -> inr (Z.max a b + 1) = true -> bnd (Z.max a b + 1) (x -f y). Proof. apply bnd_sub. Qed.
Lemma a_mul a b x y : bnd a x -> bnd b y -> inr (a + b) = true -> bnd (a + b) (x *f y). Proof. apply bnd_mul. Qed.
Lemma a_div a b m x y : bnd a x -> bnd b y -> lob m y -> inr (a - m) = true -> bnd (a - m) (x /f y). Proof. apply bnd_div. Qed.
Lemma a_neg a x : bnd a x -> bnd a (fneg x). Proof. apply bnd_neg. Qed.
Lemma a_lob_mul a b m n x y : bnd a x -> bnd b y -> inr (a + b) = true -> lob m x -> lob n y -> inr (m + n) = true -> lob (m + n) (x *f y).
Proof. apply lob_mul. Qed.
Lemma b_one : bnd 0 (f1 : spec_float).
Proof. apply one_bnd. split; reflexivity. Qed.
Lemma b_zero : bnd 0 (f0 : spec_float).
Proof. apply one_bnd. split; reflexivity. Qed.
Lemma b_half : bnd 0 (fhalf : spec_float).
Proof. apply one_bnd. split; reflexivity. Qed.
Lemma b_sin x : bnd 100 x -> bnd 0 (fsin x).
Proof. intros [R _]. apply one_bnd. apply G; apply R. Qed.
Lemma b_cos x : bnd 100 x -> bnd 0 (fcos x).
Proof. intros [R _]. apply one_bnd. apply G; apply R. Qed.
Ltac bn := match goal with
  | H : bnd _ ?x |- bnd _ ?x => exact H
  | |- bnd _ f0 => exact b_zero
  | |- bnd _ f1 => exact b_one
  | |- bnd _ fhalf => exact b_half
  | |- bnd _ (_ +f _) => eapply a_add; [bn | bn | reflexivity]
  | |- bnd _ (_ -f _) => eapply a_sub; [bn | bn | reflexivity]
  | |- bnd _ (_ *f _) => eapply a_mul; [bn | bn | reflexivity]
  | |- bnd _ (_ /f _) => eapply a_div; [bn | bn | lo | reflexivity]
  | |- bnd _ (fneg _) => eapply a_neg; bn
  | |- bnd _ (fsin _) => eapply b_sin; bn
  | |- bnd _ (fcos _) => eapply b_cos; bn
  end
with lo := match goal with
  | H : lob _ ?x |- lob _ ?x => exact H
  | |- lob _ (_ *f _) => eapply a_lob_mul; [bn | bn | reflexivity | lo | lo | reflexivity]
  end.
Ltac bw := eapply bnd_weaken; [bn | reflexivity].

(** norms *)
Lemma n2_facts d : bnd 101 (fst d) -> bnd 101 (snd d) -> bnd 203 (v2norm2 d) /\ 0 <= r64 (v2norm2 d).
Proof.
  destruct d as [x y]. simpl fst; simpl snd. intros X Y. split; [unfold v2norm2, v2dot; simpl fst; simpl snd; bw|].
  apply (add_nonneg 202 202); [bw | bw | reflexivity | |]; eapply sq_nonneg; eauto.
Qed.
Lemma norm_facts d : bnd 101 (fst d) -> bnd 101 (snd d) -> bnd 102 (v2norm d) /\ 0 <= r64 (v2norm d).
Proof.
  intros X Y. destruct (n2_facts d X Y) as [N P]. split; [apply (bnd_sqrt 203 _ N P eq_refl)|].
  unfold v2norm. destruct (sqrt_real _ (proj1 N) P) as [R E]. change (fsqrt (v2norm2 d)) with (SFsqrt 53 1024 (v2norm2 d)). rewrite E. apply rnd_nonneg, sqrt_pos.
Qed.
Definition apart (d : spec_float * spec_float) : Prop := bp (-20) <= Rabs (r64 (fst d)) \/ bp (-20) <= Rabs (r64 (snd d)).
Lemma apart_facts d : bnd 101 (fst d) -> bnd 101 (snd d) -> apart d -> lob (-40) (v2norm2 d) /\ lob (-20) (v2norm d).
Proof.
  intros X Y H. assert (N : lob (-40) (v2norm2 d)).
  { apply (add_lob 202 202); try (eapply sq_nonneg; eauto; reflexivity); [eapply (bnd_mul 101 101); eauto | eapply (bnd_mul 101 101); eauto | reflexivity | reflexivity |].
    destruct H as [H|H]; [left|right]; apply (sq_lob 101 (-20)); auto. }
  split; auto. destruct (n2_facts d X Y) as [B _]. apply (sqrt_lob 203 (-20) _ B); auto.
Qed.
Lemma check_lob k x : bnd k x -> flt x Cons.lit_1em6 = false -> lob (-20) x.
Proof. intros B H. destruct r64_1em6 as [R1 R2]. apply (ltb_false_R _ _ (proj1 B) R1) in H. unfold lob. lra. Qed.
Lemma check_abs_lob k x : bnd k x -> 0 <= r64 x -> flt (fabs x) Cons.lit_1em6 = false -> lob (-20) x.
Proof.
  intros B P H. destruct (abs_real x (proj1 B)) as [R E]. rewrite Rabs_pos_eq in E by auto. destruct r64_1em6 as [R1 R2]. apply (ltb_false_R _ _ R R1) in H. unfold lob. lra.
Qed.
Lemma clamp_bnd x : real64 x -> bnd 0 (fclamp fm1 f1 x).
Proof.
  intros R. assert (O : real64 f1 /\ r64 f1 = 1) by (split; [split; reflexivity | apply (r64_pow _ _ 0); reflexivity]).
  destruct O as [O1 O2]. destruct (opp_real f1 O1) as [M1 M2]. unfold fclamp, fgt.
  assert (B : bnd 0 fm1) by (apply (bnd_neg 0), b_one).
  assert (B1 : bp 0 = 1) by reflexivity. assert (R' : real64 fm1) by apply B.
  destruct (flt x fm1) eqn:E1.
  - destruct (flt f1 fm1) eqn:E2; [apply b_one | exact B].
  - destruct (flt f1 x) eqn:E2; [apply b_one|]. apply (ltb_false_R _ _ R R') in E1. apply (ltb_false_R _ _ O1 R) in E2.
    change (r64 fm1) with (r64 (SFopp f1)) in E1. split; auto. rewrite B1. apply Rabs_le. lra.
Qed.
Lemma theta_bnd k c : bnd k c -> bnd 2 (facos (fclamp fm1 f1 c)).
Proof. intros B. apply four_bnd, G. apply one_bnd, clamp_bnd, B. Qed.
Lemma r64_format x : valid64 x -> generic_format radix2 fexp64 (r64 x).
Proof. intros V. rewrite <- (bx_R x V). apply generic_format_B2R. Qed.
Lemma zero_of_r64 x : real64 x -> r64 x = 0 -> exists s, x = S754_zero s.
Proof.
  intros [V F] E. destruct x as [s|s| |s m e]; try discriminate; [now exists s|]. exfalso. unfold r64, SF2R in E. apply eq_0_F2R in E. destruct s; discriminate.
Qed.
Lemma g_theta_bnd c : bnd 300 c -> ffin (fneg f1 /f fsqrt (fmax (f1 -f c *f c) f0)) = true -> bnd 27 (fneg f1 /f fsqrt (fmax (f1 -f c *f c) f0)).
Proof.
  intros B F. assert (Y : bnd 600 (c *f c)) by bw. set (y := c *f c) in *. assert (Z : bnd 601 (f1 -f y)) by bw.
  assert (O : real64 f1 /\ r64 f1 = 1) by (split; [split; reflexivity | apply (r64_pow _ _ 0); reflexivity]). destruct O as [O1 O2].
  assert (E : r64 (f1 -f y) = rnd64 (1 - r64 y)).
  { rewrite <- O2. refine (proj2 (sub_real f1 y O1 (proj1 Y) _)). rewrite O2. destruct Y as [_ Y].
    assert (T : Rabs (1 + - r64 y) <= bp (Z.max 0 600 + 1)) by (apply sum_le; [rewrite Rabs_R1; simpl; lra | now rewrite Rabs_Ropp]).
    apply (rnd_le _ 601 ltac:(lia)) in T. pose proof (bp_lt 601 1024 ltac:(lia)). unfold Rminus. lra. }
  set (z := f1 -f y) in *. assert (Z0 : real64 f0 /\ r64 f0 = 0) by (split; [split; reflexivity | reflexivity]). destruct Z0 as [Z1 Z2].
  destruct (Rlt_or_le (r64 y) 1) as [H|H].
  - assert (P : r64 y <= pred radix2 fexp64 1). { apply pred_ge_gt; auto with typeclass_instances; [apply r64_format, Y | apply (bp_format 0); lia]. }
    change 1 with (bp 0) in P. rewrite pred_bpow in P. change (SpecFloat.fexp 53 1024 0) with (-53)%Z in P.
    assert (Lz : bp (-54) <= r64 z). { rewrite E. apply rnd_ge; [lia|]. pose proof (bp_lt (-54) (-53) ltac:(lia)). change (bp 0) with 1 in P. lra. }
    pose proof (bpow_gt_0 radix2 (-54)).
    assert (M : fmax z f0 = z).
    { unfold fmax. destruct (flt z f0) eqn:E1; [apply (ltb_R _ _ (proj1 Z) Z1) in E1; lra|].
      destruct (feq z z) eqn:E2; auto. exfalso. change (SFeqb z z = false) in E2. pose proof (proj2 (proj1 Z)) as Fz.
      destruct z as [s|s| |s m e]; try discriminate Fz; [discriminate E2|].
      destruct s; unfold SFeqb in E2; simpl in E2; rewrite Z.compare_refl in E2; fold (Pos.compare m m) in E2; rewrite Pos.compare_refl in E2; discriminate. }
    rewrite M in *. assert (S1 : bnd 301 (fsqrt z)) by (apply (bnd_sqrt 601 z Z); [lra | reflexivity]).
    assert (S2 : lob (-27) (fsqrt z)) by (apply (sqrt_lob 601 (-27) z Z); auto). bw.
  - exfalso. assert (Le : r64 z <= 0). { rewrite E. apply round_le_generic; auto with typeclass_instances; [apply generic_format_0 | lra]. }
    assert (M : exists s, fmax z f0 = S754_zero s).
    { unfold fmax. destruct (flt z f0) eqn:E1; [exists false; reflexivity|]. apply (ltb_false_R _ _ (proj1 Z) Z1) in E1.
      destruct (zero_of_r64 z (proj1 Z) ltac:(lra)) as [s ->]. exists s. destruct s; reflexivity. }
    destruct M as [s M]. rewrite M in F. destruct s; discriminate.
Qed.

(** reading data *)
Definition rows_ok (rs : list (gtarget * vec spec_float)) : Prop := lFor (fun tr => lFor (bnd 900) (snd tr)) rs.
Variables (h : heap spec_float) (k : loc).
Hypothesis Mo : moderate_con L h k.
Lemma read_pt r x : In r (con_refs (getK h k)) -> (r = PPoint x \/ In (PPoint x) (prim_refs h r)) -> bnd 100 (fst (pdata h x)) /\ bnd 100 (snd (pdata h x)).
Proof.
  intros I H. assert (R : lFor moderate (prim_data h (PPoint x))). { apply (proj1 Mo). exists r. split; auto. destruct H; auto. }
  inversion R as [|? ? R1 R2]. inversion R2 as [|? ? R3 R4]. split; apply moderate_bnd; auto.
Qed.
Lemma read_arc a : In (PArc a) (con_refs (getK h k)) -> bnd 100 (a_radius (getA h a)) /\ bnd 100 (a_sa (getA h a)) /\ bnd 100 (a_ea (getA h a)).
Proof.
  intros I. assert (R : lFor moderate (prim_data h (PArc a))). { apply (proj1 Mo). exists (PArc a). auto. }
  inversion R as [|? ? R1 R2]. inversion R2 as [|? ? R3 R4]. inversion R4 as [|? ? R5 R6]. split; [|split]; apply moderate_bnd; auto.
Qed.
Lemma line_pts l : In (PLine l) (con_refs (getK h k)) -> 
  bnd 100 (fst (line_start h l)) /\ bnd 100 (snd (line_start h l)) /\ bnd 100 (fst (line_end h l)) /\ bnd 100 (snd (line_end h l)).
Proof.
  intros I. destruct (read_pt _ (l_start (getL h l)) I) as [A1 A2]; [right; simpl; auto|].
  destruct (read_pt _ (l_end (getL h l)) I) as [A3 A4]; [right; simpl; auto|]. auto.
Qed.
Lemma apart_of l : In (PLine l) (con_refs (getK h k)) -> ends_apart L h l -> apart (v2sub (line_end h l) (line_start h l)).
Proof.
  intros I (xs & ys & xe & ye & E1 & E2 & H). destruct (line_pts l I) as (P1 & P2 & P3 & P4). cbn [prim_data] in E1, E2. unfold apart, v2sub. cbn [fst snd].
  injection E1 as X1 X2. injection E2 as X3 X4. unfold line_start, line_end, pdata, p_data in *. cbn [fst snd] in *. subst xs ys xe ye.
  destruct r64_1em6 as [R1 R2].
  assert (D : forall u v, bnd 100 u -> bnd 100 v -> SFleb (lit64 1 6) (SFabs (SFsub 53 1024 u v)) = true -> bp (-20) <= Rabs (r64 (u -f v))).
  { intros u v Bu Bv T. assert (B : bnd 101 (u -f v)) by bw. destruct (abs_real _ (proj1 B)) as [Ra Ea]. apply (leb_R _ _ R1 Ra) in T. change (u -f v) with (SFsub 53 1024 u v) in *. lra. }
  destruct H as [H|H]; [left|right]; apply D; auto.
Qed.
Ltac rows := cbv [rowmul mtrans mcol map seq nth dot1 sum1 map2 fold_left vscale vneg vdivs vadd vsub v2row point_gradient start_gradient end_gradient
   arc_end_point_gradient arc_start_point_gradient end_minus_start normalize_gradient v2sub v2dot arc_end_point arc_start_point fst snd];
   repeat (first [apply Forall_nil | apply Forall_cons]); cbn [snd]; repeat (first [apply Forall_nil | apply Forall_cons]); try bw.

Lemma d_bnd u v : bnd 100 (fst u) -> bnd 100 (snd u) -> bnd 100 (fst v) -> bnd 100 (snd v) -> bnd 101 (fst (v2sub u v)) /\ bnd 101 (snd (v2sub u v)).
Proof. intros. unfold v2sub; cbn [fst snd]. split; bw. Qed.
Lemma param_bnd : lFor (bnd 100) (con_params (getK h k)).
Proof. destruct Mo as (_ & P & _). eapply Forall_impl; [|exact P]. intros x. apply moderate_bnd. Qed.

Lemma con_bounded : rows_ok (grad_rows h (getK h k)) /\ bnd 900 (loss_value h (getK h k)).
Proof.
  pose proof param_bnd as PB. pose proof read_pt as RP. pose proof read_arc as RA. pose proof line_pts as LP. pose proof (proj2 (proj2 Mo)) as AP. pose proof apart_of as AO.
  destruct (getK h k) as [p1 p2 pm d|a p|a p|p1 p2 d|p1 p2 d|p1 p2 d|p x y|l1 l2|l|l|l1 l2|l1 l2]; cbn [con_refs con_params] in *.
  - (* angle *)
    destruct (RP (PPoint p1) p1) as [A1 A2]; [simpl; auto | auto |]. destruct (RP (PPoint p2) p2) as [B1 B2]; [simpl; auto | auto |].
    destruct (RP (PPoint pm) pm) as [C1 C2]; [simpl; auto | auto |]. assert (D : bnd 100 d) by now inversion PB.
    destruct (d_bnd _ _ A1 A2 C1 C2) as [D1 D2]. destruct (d_bnd _ _ B1 B2 C1 C2) as [E1 E2].
    destruct (norm_facts _ D1 D2) as [N1 P1]. destruct (norm_facts _ E1 E2) as [N2 P2].
    cbn [grad_rows loss_value]. unfold current_angle.
    set (u := v2sub (pdata h p1) (pdata h pm)) in *. set (w := v2sub (pdata h p2) (pdata h pm)) in *.
    assert (DT : bnd 203 (v2dot u w)) by (unfold v2dot; bw).
    destruct (flt (fabs (v2norm u)) Cons.lit_1em6) eqn:K1; cbn [orb]; [split; [constructor | bw]|].
    destruct (flt (fabs (v2norm w)) Cons.lit_1em6) eqn:K2; cbn [orb]; [split; [constructor | bw]|].
    apply (check_abs_lob _ _ N1 P1) in K1. apply (check_abs_lob _ _ N2 P2) in K2.
    assert (CT : bnd 300 (v2dot u w /f (v2norm u *f v2norm w))) by bw.
    pose proof (theta_bnd _ _ CT) as TH. set (ct := v2dot u w /f (v2norm u *f v2norm w)) in *. set (th := facos (fclamp fm1 f1 ct)) in *.
    split; [|destruct (negb (ffin ct)); bw]. destruct (negb (ffin th)); [constructor|].
    pose proof (g_theta_bnd ct CT) as GT. set (gt := fneg f1 /f fsqrt (fmax (f1 -f ct *f ct) f0)) in *. destruct (ffin gt); cbn [negb]; [|constructor].
    specialize (GT eq_refl). set (n1 := v2norm u) in *. set (n2 := v2norm w) in *. set (dt := v2dot u w) in *.
    clearbody gt th ct n1 n2 dt u w. destruct u as [u1 u2], w as [w1 w2]. cbn [fst snd] in *. unfold rows_ok. rows.
  - destruct (RP (PPoint p) p) as [Q1 Q2]; [simpl; auto | auto |]. destruct (RP (PArc a) (a_center (getA h a))) as [C1 C2]; [simpl; auto | simpl; auto |].
    destruct (RA a) as (R1 & R2 & R3); [simpl; auto|]. unfold pdata, p_data in *. cbn [fst snd] in C1, C2, Q1, Q2.
    split; [unfold rows_ok; cbn [grad_rows]; unfold pdata, p_data; rows | cbn [loss_value]; unfold pdata, p_data; cbv [arc_end_point fst snd]; bw].
  - destruct (RP (PPoint p) p) as [Q1 Q2]; [simpl; auto | auto |]. destruct (RP (PArc a) (a_center (getA h a))) as [C1 C2]; [simpl; auto | simpl; auto |].
    destruct (RA a) as (R1 & R2 & R3); [simpl; auto|]. unfold pdata, p_data in *. cbn [fst snd] in C1, C2, Q1, Q2.
    split; [unfold rows_ok; cbn [grad_rows]; unfold pdata, p_data; rows | cbn [loss_value]; unfold pdata, p_data; cbv [arc_start_point fst snd]; bw].
  - destruct (RP (PPoint p1) p1) as [A1 A2]; [simpl; auto | auto |]. destruct (RP (PPoint p2) p2) as [B1 B2]; [simpl; auto | auto |].
    assert (D : bnd 100 d) by now inversion PB. destruct (d_bnd _ _ A1 A2 B1 B2) as [D1 D2]. destruct (norm_facts _ D1 D2) as [N1 P1].
    cbn [grad_rows loss_value]. unfold current_distance, half_sq. set (u := v2sub (pdata h p1) (pdata h p2)) in *.
    split; [|bw]. destruct (flt (v2norm u) Cons.lit_1em6) eqn:K1; [constructor|]. apply (check_lob _ _ N1) in K1.
    set (n := v2norm u) in *. clearbody n u. destruct u as [u1 u2]. cbn [fst snd] in *. unfold rows_ok. rows.
  - destruct (RP (PPoint p1) p1) as [A1 A2]; [simpl; auto | auto |]. destruct (RP (PPoint p2) p2) as [B1 B2]; [simpl; auto | auto |].
    assert (D : bnd 100 d) by now inversion PB. cbn [grad_rows loss_value]. unfold current_hdistance, half_sq. split; [unfold rows_ok|bw].
    destruct (pdata h p1) as [x1 y1], (pdata h p2) as [x2 y2]. cbn [fst snd] in *. rows.
  - destruct (RP (PPoint p1) p1) as [A1 A2]; [simpl; auto | auto |]. destruct (RP (PPoint p2) p2) as [B1 B2]; [simpl; auto | auto |].
    assert (D : bnd 100 d) by now inversion PB. cbn [grad_rows loss_value]. unfold current_vdistance, half_sq. split; [unfold rows_ok|bw].
    destruct (pdata h p1) as [x1 y1], (pdata h p2) as [x2 y2]. cbn [fst snd] in *. rows.
  - destruct (RP (PPoint p) p) as [A1 A2]; [simpl; auto | auto |]. inversion PB as [|? ? X PB']. inversion PB' as [|? ? Y _]. subst.
    cbn [grad_rows loss_value]. destruct (pdata h p) as [x1 y1]. cbn [fst snd] in *. split; [unfold rows_ok; rows|]. cbv [v2norm2 v2dot v2sub fst snd]. bw.
  - (* equal length *)
    destruct (LP l1) as (A1 & A2 & A3 & A4); [simpl; auto|]. destruct (LP l2) as (B1 & B2 & B3 & B4); [simpl; auto|].
    destruct (d_bnd _ _ A3 A4 A1 A2) as [D1 D2]. destruct (d_bnd _ _ B3 B4 B1 B2) as [E1 E2]. destruct AP as [AP1 AP2].
    destruct (apart_facts _ D1 D2 (AO l1 (or_introl eq_refl) AP1)) as [_ L1]. destruct (apart_facts _ E1 E2 (AO l2 (or_intror (or_introl eq_refl)) AP2)) as [_ L2].
    destruct (norm_facts _ D1 D2) as [N1 _]. destruct (norm_facts _ E1 E2) as [N2 _].
    cbn [grad_rows loss_value]. unfold half_sq. set (u := v2sub (line_end h l1) (line_start h l1)) in *. set (w := v2sub (line_end h l2) (line_start h l2)) in *.
    split; [|bw]. set (n1 := v2norm u) in *. set (n2 := v2norm w) in *. clearbody n1 n2 u w. destruct u as [u1 u2], w as [w1 w2]. cbn [fst snd] in *. unfold rows_ok. rows.
  - destruct (LP l) as (A1 & A2 & A3 & A4); [simpl; auto|]. cbn [grad_rows loss_value]. unfold half_sq. split; [unfold rows_ok|bw].
    destruct (line_start h l) as [x1 y1], (line_end h l) as [x2 y2]. cbn [fst snd] in *. rows.
  - destruct (LP l) as (A1 & A2 & A3 & A4); [simpl; auto|]. cbn [grad_rows loss_value]. unfold half_sq. split; [unfold rows_ok|bw].
    destruct (line_start h l) as [x1 y1], (line_end h l) as [x2 y2]. cbn [fst snd] in *. rows.
  - (* parallel *)
    destruct (LP l1) as (A1 & A2 & A3 & A4); [simpl; auto|]. destruct (LP l2) as (B1 & B2 & B3 & B4); [simpl; auto|].
    destruct (d_bnd _ _ A3 A4 A1 A2) as [D1 D2]. destruct (d_bnd _ _ B3 B4 B1 B2) as [E1 E2]. destruct AP as [AP1 AP2].
    destruct (apart_facts _ D1 D2 (AO l1 (or_introl eq_refl) AP1)) as [M1 L1]. destruct (apart_facts _ E1 E2 (AO l2 (or_intror (or_introl eq_refl)) AP2)) as [M2 L2].
    destruct (norm_facts _ D1 D2) as [N1 _]. destruct (norm_facts _ E1 E2) as [N2 _]. destruct (n2_facts _ D1 D2) as [S1 _]. destruct (n2_facts _ E1 E2) as [S2 _].
    cbn [grad_rows loss_value]. unfold half_sq. set (u := v2sub (line_end h l1) (line_start h l1)) in *. set (w := v2sub (line_end h l2) (line_start h l2)) in *.
    destruct (negb (v2finite (v2normalize u) && v2finite (v2normalize w))); [split; [constructor | bw]|].
    unfold v2normalize, normalize_gradient. set (n1 := v2norm u) in *. set (n2 := v2norm w) in *. set (m1 := v2norm2 u) in *. set (m2 := v2norm2 w) in *.
    clearbody n1 n2 m1 m2 u w. destruct u as [u1 u2], w as [w1 w2]. cbn [fst snd] in *. split; [unfold rows_ok; rows | bw].
  - (* perpendicular *)
    destruct (LP l1) as (A1 & A2 & A3 & A4); [simpl; auto|]. destruct (LP l2) as (B1 & B2 & B3 & B4); [simpl; auto|].
    destruct (d_bnd _ _ A3 A4 A1 A2) as [D1 D2]. destruct (d_bnd _ _ B3 B4 B1 B2) as [E1 E2]. destruct AP as [AP1 AP2].
    destruct (apart_facts _ D1 D2 (AO l1 (or_introl eq_refl) AP1)) as [M1 L1]. destruct (apart_facts _ E1 E2 (AO l2 (or_intror (or_introl eq_refl)) AP2)) as [M2 L2].
    destruct (norm_facts _ D1 D2) as [N1 _]. destruct (norm_facts _ E1 E2) as [N2 _]. destruct (n2_facts _ D1 D2) as [S1 _]. destruct (n2_facts _ E1 E2) as [S2 _].
    cbn [grad_rows loss_value]. unfold half_sq. set (u := v2sub (line_end h l1) (line_start h l1)) in *. set (w := v2sub (line_end h l2) (line_start h l2)) in *.
    destruct (negb (v2finite (v2normalize u) && v2finite (v2normalize w))); [split; [constructor | bw]|].
    unfold v2normalize, normalize_gradient, v2dot. set (n1 := v2norm u) in *. set (n2 := v2norm w) in *. set (m1 := v2norm2 u) in *. set (m2 := v2norm2 w) in *.
    clearbody n1 n2 m1 m2 u w. destruct u as [u1 u2], w as [w1 w2]. cbn [fst snd] in *. split; [unfold rows_ok; rows | bw].
Qed.
End FC.
