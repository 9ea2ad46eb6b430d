(** * How exactly binary64 losses measure the geometry (proofs for C84) *)
From Coq Require Import List ZArith NArith Arith Bool Reals Lra Lia Floats.SpecFloat.
From Flocq Require Import Core.Core IEEE754.BinarySingleNaN.
From Verif Require Import Arith ArithR ArithF Vec Prim Cons Sketch Spec SerdeSpec SpecLemmas FloatLemmas FloatSpec FloatBound
  ExactLemmas ExactSpec RoundSpec RoundTurn RoundWalk RoundArea AccuracySpec AccuracyLemmas.
Import ListNotations.
Local Open Scope R_scope.

Section Loss.
Variable L : libm.
#[local] Instance AF : Arith spec_float := ArithF L.
Hypothesis SC : accurate_sincos L.
Variables (M : R) (h : heap spec_float).
Hypothesis M1 : / 2 ^ 100 <= M.
Hypothesis M2 : M <= 2 ^ 100.
Let H := exact_heap h.
Let g := cfg_of H.

Lemma M_bp : bp (-100) <= M <= bp 100.
Proof. rewrite pow_bp in M1, M2. change (-100)%Z with (- (100))%Z. rewrite bpow_opp. split; auto. Qed.
Lemma vx_ex x : vx (exact64 x) = value x.
Proof. destruct x as [s|s| |s m e]; try reflexivity. destruct s; reflexivity. Qed.
Lemma cx_ex p : cx g p = value (p_x (getP h p)). Proof. unfold g, cfg_of, H. cbn [cx]. rewrite (getP_ex L h). apply vx_ex. Qed.
Lemma cy_ex p : cy g p = value (p_y (getP h p)). Proof. unfold g, cfg_of, H. cbn [cy]. rewrite (getP_ex L h). apply vx_ex. Qed.
Lemma cr_ex a : cr g a = value (a_radius (getA h a)). Proof. unfold g, cfg_of, H. cbn [cr]. rewrite (getA_ex L h). apply vx_ex. Qed.
Lemma csa_ex a : csa g a = value (a_sa (getA h a)). Proof. unfold g, cfg_of, H. cbn [csa]. rewrite (getA_ex L h). apply vx_ex. Qed.
Lemma cea_ex a : cea g a = value (a_ea (getA h a)). Proof. unfold g, cfg_of, H. cbn [cea]. rewrite (getA_ex L h). apply vx_ex. Qed.
Lemma getK_ex k : getK H k = exact_con (getK h k).
Proof. unfold getK, H, exact_heap. cbn [h_cons]. rewrite <- (map_nth exact_con). reflexivity. Qed.
Lemma dir_ex l : dirR g H l = sub2 (val2 (line_end h l)) (val2 (line_start h l)).
Proof. unfold dirR, from_to. rewrite !cx_ex, !cy_ex. reflexivity. Qed.
Lemma center_ex a : a_center (getA H a) = a_center (getA h a). Proof. unfold H. now rewrite (getA_ex L h). Qed.

(** units: M, U M and smaller *)
Lemma units : 0 < M /\ 0 < U * M /\ U * (U * M) <= U * M / 1000 /\ t <= U * M / 1000 /\ 0 < t /\ 0 < eta <= t /\ 10 * M <= bp 105 /\ 0 <= U * (U * M) /\ U * M <= M / 1000.
Proof.
  destruct M_bp as [A B]. pose proof U_small as US. pose proof t_pos as TP. pose proof eta_t as (T1 & T2 & T3 & T4). assert (P : 0 < M) by (pose proof (bpow_gt_0 radix2 (-100)); lra).
  assert (UM : 0 < U * M) by (apply Rmult_lt_0_compat; lra). split; auto. split; auto. split; [nra|]. split; [|split; [auto|split; [auto|split]]].
  - apply Rle_trans with (bp (-53) * bp (-100) * bp (-10)); [rewrite <- !bpow_plus; apply bpow_le; lia|]. rewrite <- U_bp. change (bp (-10)) with (/ 1024).
    assert (U * bp (-100) <= U * M) by (apply Rmult_le_compat_l; lra). assert (0 < bp (-100)) by apply bpow_gt_0. nra.
  - apply Rle_trans with (bp 5 * bp 100); [change (bp 5) with 32; lra | rewrite <- bpow_plus; apply bpow_le; lia].
  - split; nra.
Qed.
Lemma final_bound e : e <= 64 * (U * M) -> e <= M / 2 ^ 47.
Proof. intros E. eapply Rle_trans; [exact E|]. unfold U. right. simpl. field. Qed.
Lemma big200 : bp 105 <= bp 200. Proof. apply bp_le. lia. Qed.
Lemma big500 : bp 105 <= big. Proof. apply bp_le. lia. Qed.

Definition good (x : spec_float) (r e : R) : Prop := finite64 x /\ 0 <= value x <= bp 450 /\ Rabs (sqrt (2 * value x) - r) <= e.

(** one linear equation, or the difference of lengths *)
Lemma diff_good x y a b m n e f : ap x a m e -> ap y b n f -> 0 <= e -> 0 <= f -> m <= 3 * M -> n <= 3 * M -> e + f + 2 * (U * (m + n)) <= 63 * (U * M) -> 0 <= m -> 0 <= n ->
  good (half_sq (SFsub 53 1024 x y)) (Rabs (a - b)) (M / 2 ^ 47).
Proof.
  intros X Y E0 F0 HM HN EF M0 N0. pose proof units as (P & UM & UUM & TU & TP & [ET1 ET2] & BM & UU0 & UM1). pose proof U_small as US. pose proof big200. pose proof big500.
  assert (Umn : 0 <= U * (m + n)) by (apply Rmult_le_pos; lra). assert (UE : U * (e + f) <= U * M / 1000 * 63). { apply Rle_trans with (U * (63 * (U * M))); [apply Rmult_le_compat_l; lra | lra]. }
  assert (Umn2 : U * (U * (m + n)) <= U * M / 1000 * 6).
  { apply Rle_trans with (U * (U * (6 * M))); [|lra]. apply Rmult_le_compat_l; [lra|]. apply Rmult_le_compat_l; lra. }
  assert (Z : m + n + e + f <= big) by lra. apply (ap_sub _ _ _ _ _ _ _ _ X Y) in Z.
  set (e' := e + f + U * (m + n + (e + f)) + eta) in *. assert (E' : e' <= 64 * (U * M)) by (unfold e'; lra).
  destruct (half_sq_ap L _ _ _ _ Z) as (G1 & G2 & G3); [lra|]. split; [exact G1|]. split; [exact G2|]. eapply Rle_trans; [exact G3|]. apply final_bound.
  assert (UE' : U * e' <= 64 * (U * (U * M))). { apply Rle_trans with (U * (64 * (U * M))); [apply Rmult_le_compat_l; lra | lra]. }
  assert (E2 : e' <= e + f + U * (m + n) + U * M / 10) by (unfold e'; lra). lra.
Qed.

Lemma vec_good d v : apv d v (len v) (U * len v + 2 * eta) -> len v <= 3 * M -> good (fhalf *f v2norm2 d) (len v) (M / 2 ^ 47).
Proof.
  intros X B. pose proof units as (P & UM & UUM & TU & TP & [ET1 ET2] & BM & UU0 & UM1). pose proof U_small as US. pose proof big200.
  assert (UL : U * len v <= 3 * (U * M)). { apply Rle_trans with (U * (3 * M)); [apply Rmult_le_compat_l; lra | lra]. }
  destruct (half_norm2_ap L _ _ _ _ X) as (G1 & G2 & G3); [lra|]. split; [exact G1|]. split; [exact G2|]. eapply Rle_trans; [exact G3|]. apply final_bound.
  assert (U * (len v + (U * len v + 2 * eta)) <= U * (4 * M)) by (apply Rmult_le_compat_l; lra). lra.
Qed.
Lemma norm_good d v : apv d v (len v) (U * len v + 2 * eta) -> len v <= 3 * M -> ap (v2norm d) (len v) (3 * M) (19 * (U * M)).
Proof.
  intros X B. pose proof units as (P & UM & UUM & TU & TP & [ET1 ET2] & BM & UU0 & UM1). pose proof U_small as US. pose proof big200.
  assert (UL : U * len v <= 3 * (U * M)). { apply Rle_trans with (U * (3 * M)); [apply Rmult_le_compat_l; lra | lra]. }
  eapply ap_weaken; [apply (norm_ap L _ _ _ _ X); lra | exact B|].
  assert (U * (len v + (U * len v + 2 * eta)) <= U * (31 / 10 * M)) by (apply Rmult_le_compat_l; lra). lra.
Qed.

Variable k : loc.
Hypothesis Me : measurable L M h k.
Lemma pt_ok p : reads h k (PPoint p) -> within M (fst (pdata h p)) /\ within M (snd (pdata h p)).
Proof. intros R. destruct Me as (A & _). specialize (A p R). cbn [prim_data p_data] in A. inversion A as [|? ? A1 A2]. inversion A2 as [|? ? A3 A4]. subst. split; auto. Qed.
Lemma sub_pts p q : reads h k (PPoint p) -> reads h k (PPoint q) -> let v := sub2 (val2 (pdata h p)) (val2 (pdata h q)) in
  apv (v2sub (pdata h p) (pdata h q)) v (len v) (U * len v + 2 * eta) /\ len v <= 3 * M.
Proof.
  intros Rp Rq. destruct (pt_ok p Rp), (pt_ok q Rq). apply (sub_rel2 L M); auto. destruct M_bp as [_ B]. eapply Rle_trans; [exact B|]. apply bp_le. lia.
Qed.
Lemma reads_ref r : In r (con_refs (getK h k)) -> reads h k r. Proof. intros I. exists r. auto. Qed.
Lemma reads_end l : In (PLine l) (con_refs (getK h k)) -> reads h k (PPoint (l_start (getL h l))) /\ reads h k (PPoint (l_end (getL h l))).
Proof. intros I. split; exists (PLine l); split; auto; right; simpl; auto. Qed.
Lemma line_good l : In (PLine l) (con_refs (getK h k)) -> let v := dirR g H l in
  apv (v2sub (line_end h l) (line_start h l)) v (len v) (U * len v + 2 * eta) /\ len v <= 3 * M.
Proof. intros I v. unfold v. rewrite dir_ex. destruct (reads_end l I). now apply sub_pts. Qed.
Lemma unit_good l : In (PLine l) (con_refs (getK h k)) -> / 2 ^ 100 <= len (dirR g H l) ->
  apv (v2normalize (v2sub (line_end h l) (line_start h l))) (unit2 (dirR g H l)) 1 (9 * U).
Proof.
  intros I B. destruct (line_good l I) as [X Y]. apply normalize_ap; auto. split.
  - rewrite pow_bp in B. change (-100)%Z with (- (100))%Z. rewrite bpow_opp. exact B.
  - pose proof units as (P & _ & _ & _ & _ & _ & BM & _). lra.
Qed.
Lemma unit_final e : e <= 64 * U -> e <= 1 / 2 ^ 47.
Proof. intros E. eapply Rle_trans; [exact E|]. unfold U. right. simpl. field. Qed.
Lemma unit_sq x a : ap x a 1 (21 * U) -> good (half_sq x) (Rabs a) (1 / 2 ^ 47).
Proof.
  intros X. pose proof U_small as US. pose proof tU as TU. pose proof t_pos as TP. destruct (half_sq_ap L _ _ _ _ X) as (G1 & G2 & G3).
  { apply Rle_trans with (bp 1); [change (bp 1) with 2; lra | apply bp_le; lia]. }
  split; [exact G1|]. split; [exact G2|]. eapply Rle_trans; [exact G3|]. apply unit_final. nra.
Qed.
Lemma v2fin d v m e : apv d v m e -> v2finite d = true.
Proof. intros ([_ A] & [_ B] & _). unfold v2finite. change (fin64 (fst d) && fin64 (snd d) = true). now rewrite A, B. Qed.

(** arc ends *)
Lemma polar_ap c r cs a : within M c -> within M r -> finite64 cs -> Rabs (value cs - a) <= / 2 ^ 50 -> Rabs a <= 1 ->
  ap (SFadd 53 1024 c (SFmul 53 1024 r cs)) (value c + value r * a) (2 * M) (12 * (U * M)).
Proof.
  intros Hc Hr Fcs Ecs Ba. pose proof units as (P & UM & UUM & TU & TP & [ET1 ET2] & BM & UU0 & UM1). pose proof U_small as US. pose proof big200. pose proof big500.
  assert (E50 : / 2 ^ 50 = 8 * U) by (unfold U; simpl; field). rewrite E50 in Ecs.
  assert (Z : (M + 0) * (1 + 8 * U) <= big) by nra. apply (ap_mul r cs _ a M 1 0 (8 * U) (ap_exact _ _ Hr) (conj Fcs (conj Ba Ecs))) in Z.
  eapply (ap_weaken _ _ _ _ M (91 / 10 * (U * M))) in Z; [|lra|].
  - assert (Y : M + M + 0 + 91 / 10 * (U * M) <= big) by lra. apply (ap_add _ _ _ _ _ _ _ _ (ap_exact _ _ Hc) Z) in Y. eapply ap_weaken; [exact Y | lra|]. nra.
  - replace (0 * 1 + (M + 0) * (8 * U) + U * (M * 1 + (0 * 1 + (M + 0) * (8 * U))) + eta) with (8 * (U * M) + (U * M) + 8 * (U * (U * M)) + eta) by ring. lra.
Qed.
Lemma arc_good e q v : ap (fst e) (fst v) (2 * M) (12 * (U * M)) -> ap (snd e) (snd v) (2 * M) (12 * (U * M)) -> within M (fst q) -> within M (snd q) ->
  len (sub2 v (val2 q)) <= 4 * M ->
  let dx := SFsub 53 1024 (fst e) (fst q) in let dy := SFsub 53 1024 (snd e) (snd q) in
  good (fhalf *f v2norm2 (dx, dy)) (len (sub2 v (val2 q))) (M / 2 ^ 47).
Proof.
  intros Ex Ey Qx Qy B dx dy. pose proof units as (P & UM & UUM & TU & TP & [ET1 ET2] & BM & UU0 & UM1). pose proof U_small as US. pose proof big200. pose proof big500.
  assert (Z : 2 * M + M + 12 * (U * M) + 0 <= big) by lra.
  assert (X := ap_sub _ _ _ _ _ _ _ _ Ex (ap_exact _ _ Qx) Z). assert (Y := ap_sub _ _ _ _ _ _ _ _ Ey (ap_exact _ _ Qy) Z). clear Z. fold dx in X. fold dy in Y.
  set (er := 12 * (U * M) + 0 + U * (2 * M + M + (12 * (U * M) + 0)) + eta) in *. assert (ER : er <= 16 * (U * M)) by (unfold er; nra).
  assert (V : apv (dx, dy) (sub2 v (val2 q)) (4 * M) (32 * (U * M))).
  { destruct X as (X1 & _ & X2), Y as (Y1 & _ & Y2). split; [exact X1|]. split; [exact Y1|]. split; [exact B|]. eapply Rle_trans; [apply len_abs_sum|]. unfold sub2, val2. cbn [fst snd]. lra. }
  destruct (half_norm2_ap L _ _ _ _ V) as (G1 & G2 & G3); [lra|]. split; [exact G1|]. split; [exact G2|]. eapply Rle_trans; [exact G3|]. apply final_bound. nra.
Qed.

Lemma polar_len a : len (cos a, sin a) = 1.
Proof. unfold len. cbn [fst snd]. pose proof (sin2_cos2 a) as S. unfold Rsqr in S. replace (cos a * cos a + sin a * sin a) with 1 by lra. apply sqrt_1. Qed.
Lemma polar_reach a p (w : R) : reads h k (PPoint (a_center (getA h a))) -> reads h k (PPoint p) -> within M (a_radius (getA h a)) ->
  let c := a_center (getA h a) in let r := value (a_radius (getA h a)) in
  len (sub2 (value (p_x (getP h c)) + r * cos w, value (p_y (getP h c)) + r * sin w) (val2 (pdata h p))) <= 4 * M.
Proof.
  intros Rc Rp [_ Br] c r. destruct (sub_pts c p Rc Rp) as [_ B]. pose proof (len_tri (sub2 (val2 (pdata h c)) (val2 (pdata h p))) (r * fst (cos w, sin w), r * snd (cos w, sin w))) as T.
  rewrite len_scal, polar_len in T. fold r in Br. eapply Rle_trans; [|apply Rle_trans with (3 * M + M); [|lra]; eapply Rle_trans; [exact T | lra]].
  right. f_equal. unfold sub2, val2, pdata, p_data. cbn [fst snd]. f_equal; ring.
Qed.
Lemma bound_trig x : Rabs (cos x) <= 1 /\ Rabs (sin x) <= 1.
Proof. pose proof (COS_bound x). pose proof (SIN_bound x). split; apply Rabs_le; lra. Qed.
Lemma loss_good : good (loss_value h (getK h k)) (discrepancy h k) (unit_of M (getK h k) / 2 ^ 47).
Proof.
  unfold discrepancy. fold H g. rewrite getK_ex. assert (Me' := Me). destruct Me' as (R1 & R2 & R3 & R4).
  pose proof units as (P & UM & UUM & TU & TP & [ET1 ET2] & BM & UU0 & UM1).
  assert (SA : forall x, sqrt (sq x) = Rabs x) by (intros x; apply sqrt_Rsqr_abs). assert (SL : forall x y, sqrt (sq x + sq y) = len (x, y)) by reflexivity.
  destruct (getK h k) as [p1 p2 pm d|a p|a p|p1 p2 d|p1 p2 d|p1 p2 d|p x y|l1 l2|l|l|l1 l2|l1 l2] eqn:EK; cbn [exact_con residual2 loss_value unit_of con_params] in *.
  - contradiction.
  - destruct (R2 a (reads_ref (PArc a) ltac:(rewrite EK; simpl; auto))) as (Ar & As & Ae). assert (Rp : reads h k (PPoint p)) by (apply reads_ref; rewrite EK; simpl; auto).
    assert (Rc : reads h k (PPoint (a_center (getA h a)))) by (exists (PArc a); rewrite EK; split; [simpl; auto | right; simpl; auto]).
    destruct (pt_ok _ Rp) as [P1 P2]. destruct (pt_ok _ Rc) as [C1 C2]. unfold end_pt. rewrite SL. cbn [fst snd]. rewrite center_ex, !cx_ex, !cy_ex, cr_ex, cea_ex.
    destruct (SC _ Ae) as (S1 & S2 & S3 & S4). destruct (bound_trig (value (a_ea (getA h a)))) as [B1 B2].
    assert (Q1 : ap (fst (arc_end_point h (getA h a))) (value (p_x (getP h (a_center (getA h a)))) + value (a_radius (getA h a)) * cos (value (a_ea (getA h a)))) (2 * M) (12 * (U * M))) by exact (polar_ap _ _ _ _ C1 Ar S3 S4 B1).
    assert (Q2 : ap (snd (arc_end_point h (getA h a))) (value (p_y (getP h (a_center (getA h a)))) + value (a_radius (getA h a)) * sin (value (a_ea (getA h a)))) (2 * M) (12 * (U * M))) by exact (polar_ap _ _ _ _ C2 Ar S1 S2 B2).
    exact (arc_good (arc_end_point h (getA h a)) (pdata h p) (value (p_x (getP h (a_center (getA h a)))) + value (a_radius (getA h a)) * cos (value (a_ea (getA h a))), value (p_y (getP h (a_center (getA h a)))) + value (a_radius (getA h a)) * sin (value (a_ea (getA h a)))) Q1 Q2 P1 P2 (polar_reach a p _ Rc Rp Ar)).
  - destruct (R2 a (reads_ref (PArc a) ltac:(rewrite EK; simpl; auto))) as (Ar & As & Ae). assert (Rp : reads h k (PPoint p)) by (apply reads_ref; rewrite EK; simpl; auto).
    assert (Rc : reads h k (PPoint (a_center (getA h a)))) by (exists (PArc a); rewrite EK; split; [simpl; auto | right; simpl; auto]).
    destruct (pt_ok _ Rp) as [P1 P2]. destruct (pt_ok _ Rc) as [C1 C2]. unfold start_pt. rewrite SL. cbn [fst snd]. rewrite center_ex, !cx_ex, !cy_ex, cr_ex, csa_ex.
    destruct (SC _ As) as (S1 & S2 & S3 & S4). destruct (bound_trig (value (a_sa (getA h a)))) as [B1 B2].
    assert (Q1 : ap (fst (arc_start_point h (getA h a))) (value (p_x (getP h (a_center (getA h a)))) + value (a_radius (getA h a)) * cos (value (a_sa (getA h a)))) (2 * M) (12 * (U * M))) by exact (polar_ap _ _ _ _ C1 Ar S3 S4 B1).
    assert (Q2 : ap (snd (arc_start_point h (getA h a))) (value (p_y (getP h (a_center (getA h a)))) + value (a_radius (getA h a)) * sin (value (a_sa (getA h a)))) (2 * M) (12 * (U * M))) by exact (polar_ap _ _ _ _ C2 Ar S1 S2 B2).
    exact (arc_good (arc_start_point h (getA h a)) (pdata h p) (value (p_x (getP h (a_center (getA h a)))) + value (a_radius (getA h a)) * cos (value (a_sa (getA h a))), value (p_y (getP h (a_center (getA h a)))) + value (a_radius (getA h a)) * sin (value (a_sa (getA h a)))) Q1 Q2 P1 P2 (polar_reach a p _ Rc Rp Ar)).
  - assert (D : within M d) by (inversion R3; auto). destruct (sub_pts p1 p2) as [X B]; [apply reads_ref; rewrite EK; simpl; auto | apply reads_ref; rewrite EK; simpl; auto|].
    unfold from_to. rewrite SA, vx_ex, !cx_ex, !cy_ex. apply (diff_good _ _ _ _ (3 * M) M (19 * (U * M)) 0 (norm_good _ _ X B) (ap_exact _ _ D)); lra.
  - assert (D : within M d) by (inversion R3; auto). destruct (pt_ok p1) as [A1 A2]; [apply reads_ref; rewrite EK; simpl; auto|]. destruct (pt_ok p2) as [B1 B2]; [apply reads_ref; rewrite EK; simpl; auto|].
    rewrite SA, vx_ex, !cx_ex. assert (Z : M + M + 0 + 0 <= big) by (pose proof big500; lra). apply (ap_sub _ _ _ _ _ _ _ _ (ap_exact _ _ B1) (ap_exact _ _ A1)) in Z.
    apply (diff_good _ _ _ _ _ M _ 0 Z (ap_exact _ _ D)); lra.
  - assert (D : within M d) by (inversion R3; auto). destruct (pt_ok p1) as [A1 A2]; [apply reads_ref; rewrite EK; simpl; auto|]. destruct (pt_ok p2) as [B1 B2]; [apply reads_ref; rewrite EK; simpl; auto|].
    rewrite SA, vx_ex, !cy_ex. assert (Z : M + M + 0 + 0 <= big) by (pose proof big500; lra). apply (ap_sub _ _ _ _ _ _ _ _ (ap_exact _ _ B2) (ap_exact _ _ A2)) in Z.
    apply (diff_good _ _ _ _ _ M _ 0 Z (ap_exact _ _ D)); lra.
  - inversion R3 as [|? ? X1 X2]. inversion X2 as [|? ? Y1 Y2]. subst. destruct (pt_ok p) as [A1 A2]; [apply reads_ref; rewrite EK; simpl; auto|].
    destruct (sub_rel2 L M (pdata h p) (x, y)) as [X B]; auto. { destruct M_bp as [_ B]. eapply Rle_trans; [exact B|]. apply bp_le. lia. }
    rewrite SL, !vx_ex, cx_ex, cy_ex. exact (vec_good _ _ X B).
  - destruct (line_good l1) as [X B]; [rewrite EK; simpl; auto|]. destruct (line_good l2) as [Y C]; [rewrite EK; simpl; auto|].
    rewrite SA. apply (diff_good _ _ _ _ (3 * M) (3 * M) (19 * (U * M)) (19 * (U * M)) (norm_good _ _ X B) (norm_good _ _ Y C)); lra.
  - destruct (reads_end l) as [Ra Rb]; [rewrite EK; simpl; auto|]. destruct (pt_ok _ Ra) as [A1 A2]. destruct (pt_ok _ Rb) as [B1 B2].
    rewrite SA, dir_ex. cbn [sub2 val2 fst snd]. apply (diff_good _ _ _ _ M M 0 0 (ap_exact _ _ B2) (ap_exact _ _ A2)); lra.
  - destruct (reads_end l) as [Ra Rb]; [rewrite EK; simpl; auto|]. destruct (pt_ok _ Ra) as [A1 A2]. destruct (pt_ok _ Rb) as [B1 B2].
    rewrite SA, dir_ex. cbn [sub2 val2 fst snd]. apply (diff_good _ _ _ _ M M 0 0 (ap_exact _ _ B1) (ap_exact _ _ A1)); lra.
  - destruct R4 as [N1 N2]. fold H g in N1, N2. assert (X := unit_good l1 ltac:(rewrite EK; simpl; auto) N1). assert (Y := unit_good l2 ltac:(rewrite EK; simpl; auto) N2).
    assert (P100 : 0 < / 2 ^ 100) by (apply Rinv_0_lt_compat, pow_lt; lra).
    destruct (Req_EM_T (len (dirR g H l1)) 0); [lra|]. destruct (Req_EM_T (len (dirR g H l2)) 0); [lra|]. rewrite (v2fin _ _ _ _ X), (v2fin _ _ _ _ Y). cbn [andb negb].
    rewrite SA. assert (Z := unit_sq _ _ (cross_ap L _ _ _ _ X Y)). replace (crossR (dirR g H l1) (dirR g H l2) / (len (dirR g H l1) * len (dirR g H l2))) with (crossR (unit2 (dirR g H l1)) (unit2 (dirR g H l2))); [exact Z|].
    unfold crossR, unit2. cbn [fst snd]. field. split; auto.
  - destruct R4 as [N1 N2]. fold H g in N1, N2. assert (X := unit_good l1 ltac:(rewrite EK; simpl; auto) N1). assert (Y := unit_good l2 ltac:(rewrite EK; simpl; auto) N2).
    assert (P100 : 0 < / 2 ^ 100) by (apply Rinv_0_lt_compat, pow_lt; lra).
    destruct (Req_EM_T (len (dirR g H l1)) 0); [lra|]. destruct (Req_EM_T (len (dirR g H l2)) 0); [lra|]. rewrite (v2fin _ _ _ _ X), (v2fin _ _ _ _ Y). cbn [andb negb].
    rewrite SA. assert (Z := unit_sq _ _ (dot_ap L _ _ _ _ X Y)). replace (dotR (dirR g H l1) (dirR g H l2) / (len (dirR g H l1) * len (dirR g H l2))) with (dotR (unit2 (dirR g H l1)) (unit2 (dirR g H l2))); [exact Z|].
    unfold dotR, unit2. cbn [fst snd]. field. split; auto.
Qed.
End Loss.

Section Total.
Variable L : libm.
#[local] Instance AF2 : Arith spec_float := ArithF L.
Hypothesis SC : accurate_sincos L.
Variables (M : R) (h : heap spec_float).
Hypothesis M1 : / 2 ^ 100 <= M.
Hypothesis M2 : M <= 2 ^ 100.

Lemma add_up acc x : finite64 acc -> finite64 x -> 0 <= value acc <= bp 955 -> 0 <= value x <= bp 450 ->
  finite64 (SFadd 53 1024 acc x) /\ 0 <= value (SFadd 53 1024 acc x) <= bp 955 /\ value acc <= value (SFadd 53 1024 acc x) /\ value x <= value (SFadd 53 1024 acc x) /\
  value (SFadd 53 1024 acc x) <= (1 + U) * (value acc + value x) + eta.
Proof.
  intros Fa Fx Ba Bx. assert (Ba' : bnd 955 acc). { split; [exact Fa|]. rewrite <- value_r64, Rabs_pos_eq; lra. }
  assert (Bx' : bnd 450 x). { split; [exact Fx|]. rewrite <- value_r64, Rabs_pos_eq; lra. }
  destruct (bnd_sat 955 450 acc x Ba' Bx') as [F B]; [lia | lia|]. destruct (add_real acc x Fa Fx) as [_ E].
  { apply (big_lt' _ 956); [lia | lia|]. rewrite <- !value_r64, Rabs_pos_eq by lra. apply Rle_trans with (bp 1 * bp 955); [change (bp 1) with 2 | rewrite <- bpow_plus; apply bpow_le; lia].
    pose proof (bp_le 450 955 ltac:(lia)). lra. }
  rewrite <- !value_r64 in E. assert (R : 0 <= rnd64 (value acc + value x)) by (apply rnd_nonneg; lra). split; [exact F|]. rewrite <- value_r64, E, Rabs_pos_eq in B by lra. rewrite E. split; [lra|].
  assert (K : forall y, finite64 y -> y = acc \/ y = x -> value y <= rnd64 (value acc + value x)).
  { intros y Fy Hy. rewrite <- (round_generic radix2 fexp64 (round_mode mode_NE) (value y)).
    - apply round_le; auto with typeclass_instances. exact (fexp_correct 53 1024 eq_refl). destruct Hy as [->| ->]; lra.
    - rewrite value_r64. apply r64_fmt, Fy. }
  split; [apply K; auto|]. split; [apply K; auto|]. pose proof (rnd_std (value acc + value x)) as S. rewrite (Rabs_pos_eq (value acc + value x)) in S by lra. apply Rabs_le_inv in S. lra.
Qed.
Definition total_from (ks : list loc) (acc : spec_float) : spec_float := fold_left (fun acc k => acc +f loss_value h (getK h k)) ks acc.
Lemma total_fin ks : (forall k, In k ks -> finite64 (loss_value h (getK h k)) /\ 0 <= value (loss_value h (getK h k)) <= bp 450) -> forall acc, finite64 acc -> 0 <= value acc <= bp 955 ->
  finite64 (total_from ks acc) /\ value acc <= value (total_from ks acc) /\ forall k, In k ks -> value (loss_value h (getK h k)) <= value (total_from ks acc).
Proof.
  induction ks as [|k ks IH]; intros G acc Fa Ba; cbn [total_from fold_left]; [split; auto; split; [lra | intros k []]|].
  destruct (G k (or_introl eq_refl)) as (F & B). destruct (add_up acc _ Fa F Ba B) as (F' & B' & A1 & A2 & _).
  destruct (IH (fun k' Hk => G k' (or_intror Hk)) _ F' B') as (I1 & I2 & I3). split; [exact I1|]. change (@fadd _ AF2) with (SFadd 53 1024). fold (total_from ks (SFadd 53 1024 acc (loss_value h (getK h k)))). split; [eapply Rle_trans; [exact A1 | exact I2]|].
  intros k' [<-|Hk]; [eapply Rle_trans; [exact A2 | exact I2] | exact (I3 _ Hk)].
Qed.
Lemma total_le b ks : 0 <= b -> (forall k, In k ks -> finite64 (loss_value h (getK h k)) /\ 0 <= value (loss_value h (getK h k)) <= bp 450 /\ value (loss_value h (getK h k)) <= b) ->
  forall acc (j : nat), finite64 acc -> 0 <= value acc <= bp 955 -> value acc <= INR j * (b + eta) * (1 + U) ^ j ->
  value (total_from ks acc) <= INR (j + length ks) * (b + eta) * (1 + U) ^ (j + length ks).
Proof.
  intros Hb. pose proof U_small as US. pose proof eta_t as (T1 & _). induction ks as [|k ks IH]; intros G acc j Fa Ba Ha; cbn [total_from fold_left length]; [rewrite Nat.add_0_r; auto|].
  destruct (G k (or_introl eq_refl)) as (F & B & Lb). destruct (add_up acc _ Fa F Ba B) as (F' & B' & _ & _ & A3).
  replace (j + S (length ks))%nat with (S j + length ks)%nat by lia. apply (IH (fun k' Hk => G k' (or_intror Hk)) _ (S j) F' B').
  eapply Rle_trans; [exact A3|]. rewrite S_INR. cbn [pow]. assert (P : 1 <= (1 + U) ^ j) by (apply pow_R1_Rle; lra).
  apply Rle_trans with ((1 + U) * (INR j * (b + eta) * (1 + U) ^ j + (b + eta) * (1 + U) ^ j)); [|right; ring].
  assert (b + eta <= (b + eta) * (1 + U) ^ j) by nra.
  apply Rle_trans with ((1 + U) * (value acc + value (loss_value h (getK h k)) + eta)); [nra|]. apply Rmult_le_compat_l; lra.
Qed.
Lemma pow_bound (n : nat) : INR n * U <= / 8 -> (1 + U) ^ n <= 8 / 7.
Proof.
  pose proof U_small as US. intros B. assert (P : (1 + U) ^ n * (1 - INR n * U) <= 1).
  { clear B. induction n as [|n IH]; [simpl; lra|]. rewrite S_INR. cbn [pow]. assert (0 < (1 + U) ^ n) by (apply pow_lt; lra).
    apply Rle_trans with ((1 + U) ^ n * (1 - INR n * U)); auto. rewrite (Rmult_comm (1 + U)), Rmult_assoc. apply Rmult_le_compat_l; [lra|]. pose proof (pos_INR n). nra. }
  assert (0 < (1 + U) ^ n) by (apply pow_lt; lra). nra.
Qed.
Variable s : sketch.
Hypothesis Ms : forall k, In k (s_cons s) -> measurable L M h k.
Lemma each k : In k (s_cons s) -> good (loss_value h (getK h k)) (discrepancy h k) (unit_of M (getK h k) / 2 ^ 47).
Proof. intros Hk. apply (loss_good L SC M h M1 M2 k (Ms k Hk)). Qed.
Lemma zero_acc : finite64 (f0 : spec_float) /\ value (f0 : spec_float) = 0 /\ 0 <= value (f0 : spec_float) <= bp 955.
Proof. split; [split; reflexivity|]. change (value f0) with 0. split; auto. split; [lra | apply bpow_ge_0]. Qed.
Lemma certifies_lemma : finite64 (get_loss h s) /\ forall k, In k (s_cons s) -> discrepancy h k <= sqrt (2 * value (get_loss h s)) + unit_of M (getK h k) / 2 ^ 47.
Proof.
  destruct zero_acc as (Z1 & Z2 & Z3). destruct (total_fin (s_cons s)) with (acc := f0 : spec_float) as (F & _ & B); auto.
  { intros k Hk. destruct (each k Hk) as (A & B & _). auto. }
  split; [exact F|]. intros k Hk. destruct (each k Hk) as (_ & C & D). specialize (B k Hk). apply Rabs_le_inv in D.
  assert (sqrt (2 * value (loss_value h (getK h k))) <= sqrt (2 * value (get_loss h s))) by (apply sqrt_le_1_alt; change (get_loss h s) with (total_from (s_cons s) f0); lra). lra.
Qed.
Lemma small_lemma D : 0 <= D -> INR (length (s_cons s)) <= 2 ^ 50 -> (forall k, In k (s_cons s) -> discrepancy h k <= D) ->
  value (get_loss h s) <= INR (length (s_cons s)) * (D + Rmax 1 M / 2 ^ 47) ^ 2.
Proof.
  intros D0 N HD. set (m := Rmax 1 M). assert (m1 : 1 <= m) by apply Rmax_l. assert (mM : M <= m) by apply Rmax_r. set (w := D + m / 2 ^ 47).
  assert (W0 : / 2 ^ 47 <= w). { unfold w, Rdiv. assert (0 < / 2 ^ 47) by (apply Rinv_0_lt_compat, pow_lt; lra). nra. }
  assert (P47 : 0 < / 2 ^ 47) by (apply Rinv_0_lt_compat, pow_lt; lra). pose proof U_small as US. pose proof eta_t as (T1 & _ & _ & ET).
  destruct zero_acc as (Z1 & Z2 & Z3). assert (T := total_le (w * w / 2) (s_cons s) ltac:(nra)).
  assert (HG : forall k, In k (s_cons s) -> finite64 (loss_value h (getK h k)) /\ 0 <= value (loss_value h (getK h k)) <= bp 450 /\ value (loss_value h (getK h k)) <= w * w / 2).
  { intros k Hk. destruct (each k Hk) as (A & B & C). split; auto. split; auto. apply Rabs_le_inv in C. specialize (HD k Hk).
    assert (UM : unit_of M (getK h k) / 2 ^ 47 <= m / 2 ^ 47). { apply Rmult_le_compat_r; [lra|]. destruct (getK h k); simpl; lra. }
    assert (S0 : 0 <= sqrt (2 * value (loss_value h (getK h k)))) by apply sqrt_pos. assert (S1 : sqrt (2 * value (loss_value h (getK h k))) <= w) by (unfold w; lra).
    assert (Q0 : 0 <= 2 * value (loss_value h (getK h k))) by (apply Rmult_le_pos; [lra | apply B]). pose proof (sqrt_sqrt _ Q0) as QQ.
    set (y := sqrt (2 * value (loss_value h (getK h k)))) in *. nra. }
  specialize (T HG (f0 : spec_float) 0%nat Z1 Z3). cbn [INR plus pow] in T. specialize (T ltac:(rewrite Z2; lra)). change (get_loss h s) with (total_from (s_cons s) f0).
  eapply Rle_trans; [exact T|]. assert (PB : (1 + U) ^ length (s_cons s) <= 8 / 7).
  { apply pow_bound. apply Rle_trans with (2 ^ 50 * U); [apply Rmult_le_compat_r; lra|]. unfold U. right. simpl. field. }
  assert (EW : eta <= w * w / 100).
  { apply Rle_trans with (/ 2 ^ 47 * / 2 ^ 47 / 100); [|nra]. rewrite pow_bp. rewrite <- bpow_opp, <- bpow_plus. apply Rle_trans with (bp (-94 + -10)); [apply bpow_le; lia|].
    rewrite bpow_plus. change (bp (-10)) with (/ 1024). pose proof (bpow_gt_0 radix2 (-94)). simpl (- Z.of_nat 47 + - Z.of_nat 47)%Z. lra. }
  rewrite !Rmult_assoc. apply Rmult_le_compat_l; [apply pos_INR|]. simpl (w ^ 2). rewrite Rmult_1_r. assert (0 < (1 + U) ^ length (s_cons s)) by (apply pow_lt; lra). nra.
Qed.
End Total.

Section Solvers.
Variable L : libm.
#[local] Instance AF3 : Arith spec_float := ArithF L.
Hypothesis SC : accurate_sincos L.
Variables (M : R) (h' : heap spec_float) (s : sketch).
Hypothesis M1 : / 2 ^ 100 <= M.
Hypothesis M2 : M <= 2 ^ 100.
Hypothesis Ms : forall k, In k (s_cons s) -> measurable L M h' k.
Lemma below_lemma m : finite64 m -> SFltb (get_loss h' s) m = true -> forall k, In k (s_cons s) -> discrepancy h' k <= sqrt (2 * value m) + unit_of M (getK h' k) / 2 ^ 47.
Proof.
  intros Fm Lt k Hk. destruct (certifies_lemma L SC M h' M1 M2 s Ms) as [F C]. apply (ltb_R _ _ F Fm) in Lt. rewrite <- !value_r64 in Lt.
  eapply Rle_trans; [exact (C k Hk)|]. apply Rplus_le_compat_r, sqrt_le_1_alt. apply Rmult_le_compat_l; [lra|]. apply Rlt_le, Lt.
Qed.
End Solvers.
