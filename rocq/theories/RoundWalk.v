(** * Binary64 walks are those of the real geometry (proofs for C68) *)
From Coq Require Import List ZArith NArith Arith Bool Reals Lra Lia Permutation Floats.SpecFloat.
From Flocq Require Import Core.Core IEEE754.BinarySingleNaN.
From Verif Require Import Arith ArithR ArithF Vec Prim Cons Sketch Spec SpecLemmas FloatLemmas FloatSpec FloatBound Decomp DecompSpec DecompLemmas
  PolygonLemmas WalkLemmas OrderLemmas ExactLemmas ExactDecomp DecompForms RoundSpec RoundPi RoundTurn RoundRem RoundAngle.
Import ListNotations.

Section Walk.
Variable L : libm.
#[local] Instance AF : Arith spec_float := ArithF L.
Variables (M : R) (h : heap spec_float) (s : sketch).
Let H := exact_heap h.

Lemma f0_ex : exact64 (f0 : spec_float) = f0.
Proof. change (exact64 (f0 : spec_float)) with (Fin 0). rewrite f0_R. reflexivity. Qed.
Lemma getP_ex p : getP H p = exact_point (getP h p).
Proof.
  unfold getP, H, exact_heap. cbn [h_pts]. rewrite <- (map_nth exact_point). f_equal. unfold pt0, exact_point. cbn [p_x p_y p_gx p_gy]. now rewrite f0_ex.
Qed.
Lemma getL_ex l : getL H l = getL h l. Proof. reflexivity. Qed.
Lemma getC_ex l : getC H l = exact_circle (getC h l).
Proof.
  unfold getC, H, exact_heap. cbn [h_circs]. rewrite <- (map_nth exact_circle). f_equal. unfold circ0, exact_circle. cbn [c_center c_radius c_gr]. now rewrite f0_ex.
Qed.
Lemma getA_ex l : getA H l = exact_arc (getA h l).
Proof.
  unfold getA, H, exact_heap. cbn [h_arcs]. rewrite <- (map_nth exact_arc). f_equal. unfold arc0, exact_arc. cbn [a_center a_radius a_sa a_ea a_gr a_gsa a_gea a_cw]. now rewrite f0_ex.
Qed.
Lemma exact_fin x : finite64 x -> exact64 x = Fin (value x).
Proof. intros [_ Hf]. destruct x; try discriminate; reflexivity. Qed.
Lemma feq_ex x y : finite64 x -> finite64 y -> feq (exact64 x) (exact64 y) = feq x y.
Proof.
  intros Hx Hy. rewrite !exact_fin by auto. destruct Hx as [Vx Fx], Hy as [Vy Fy].
  pose proof (Beqb_correct 53 1024 (SF2B x Vx) (SF2B y Vy)) as C. rewrite bx_fin, by_fin, bx_R, by_R in C.
  specialize (C Fx Fy). unfold Beqb in C. rewrite !B2SF_SF2B in C. change (feq x y) with (SFeqb x y). rewrite C, !value_r64. simpl. unfold Reqb.
  destruct (Req_bool_spec (r64 x) (r64 y)), (Req_EM_T (r64 x) (r64 y)); auto; contradiction.
Qed.

Hypothesis V : valid h s.
Hypothesis T : tame L M h s.
Hypothesis M4 : (M <= 2 ^ 400)%R.
Hypothesis DA : directions_apart H s.

Definition pt_ok (p : loc) : Prop := finite64 (p_x (getP h p)) /\ finite64 (p_y (getP h p)) /\ finite64 (p_gx (getP h p)) /\ finite64 (p_gy (getP h p)) /\
     (Rabs (value (p_x (getP h p))) <= M /\ Rabs (value (p_y (getP h p))) <= M)%R.
Definition ln_ok (g : seg spec_float) : Prop := exists l, g = SLine l /\ pt_ok (l_start l) /\ pt_ok (l_end l).
Lemma forward_ok g : In g (forward h s) -> ln_ok g.
Proof.
  intros Hg. apply in_forward in Hg as (c & id & Hc & E). assert (Hr : registered s c) by (apply (valid_reg _ _ _ V); now apply (in_map snd) in Hc).
  destruct T as (T1 & T2 & _). destruct c as [l|l|l|l]; simpl in E; try discriminate; injection E as <-.
  - exists (getL h l). split; auto. split; eapply T2; eauto.
  - destruct (T1 _ Hr).
Qed.
Lemma reverse_ok g : ln_ok g -> ln_ok (seg_reverse g).
Proof. intros (l & -> & H1 & H2). simpl. eexists. split; [reflexivity|]. simpl. auto. Qed.
Lemma directed_ok g : In g (directed h s) -> ln_ok g.
Proof.
  intros Hg. apply in_app_or in Hg as [Hg|Hg]; [now apply forward_ok|]. apply in_map_iff in Hg as (x & <- & Hx). now apply reverse_ok, forward_ok.
Qed.
Lemma forward_ex : forward H s = map exact_seg (forward h s).
Proof.
  unfold forward. rewrite !flat_map_concat_map, concat_map, map_map. f_equal. apply map_ext. intros [id c]. cbn [snd].
  destruct c as [l|l|l|l]; cbn [seg_of map]; auto. now rewrite getA_ex.
Qed.
Lemma directed_ex : directed H s = map exact_seg (directed h s).
Proof.
  unfold directed. rewrite forward_ex, map_app, !map_map. f_equal. apply map_ext_in. intros g Hg. apply forward_ok in Hg as (l & -> & _). reflexivity.
Qed.
Lemma start_ex g : ln_ok g -> get_start H (exact_seg g) = (exact64 (fst (get_start h g)), exact64 (snd (get_start h g))).
Proof. intros (l & -> & _). simpl. unfold pdata. now rewrite getP_ex. Qed.
Lemma end_ex g : ln_ok g -> get_end H (exact_seg g) = (exact64 (fst (get_end h g)), exact64 (snd (get_end h g))).
Proof. intros (l & -> & _). simpl. unfold pdata. now rewrite getP_ex. Qed.
Definition fin2 (u : spec_float * spec_float) := finite64 (fst u) /\ finite64 (snd u).
Lemma start_fin g : ln_ok g -> fin2 (get_start h g). Proof. intros (l & -> & (H1 & H2 & _) & _). split; auto. Qed.
Lemma end_fin g : ln_ok g -> fin2 (get_end h g). Proof. intros (l & -> & _ & (H1 & H2 & _)). split; auto. Qed.
Lemma v2eq_ex u v : fin2 u -> fin2 v -> v2eq (exact64 (fst u), exact64 (snd u)) (exact64 (fst v), exact64 (snd v)) = v2eq u v.
Proof. intros [A1 A2] [B1 B2]. unfold v2eq. cbn [fst snd]. now rewrite !feq_ex. Qed.
Lemma continues_ex g c : ln_ok g -> ln_ok c -> continues H (exact_seg g) (exact_seg c) = continues h g c.
Proof. intros Hg Hc. unfold continues. rewrite start_ex, end_ex by auto. apply v2eq_ex; auto using start_fin, end_fin. Qed.
Lemma point_eq_ex p q : pt_ok p -> pt_ok q -> point_eq (getP H p) (getP H q) = point_eq (getP h p) (getP h q).
Proof. intros (A1 & A2 & A3 & A4 & _) (B1 & B2 & B3 & B4 & _). unfold point_eq. rewrite !getP_ex. cbn [exact_point p_x p_y p_gx p_gy]. now rewrite !feq_ex. Qed.
Lemma seg_eq_ex g c : ln_ok g -> ln_ok c -> seg_eq H (exact_seg g) (exact_seg c) = seg_eq h g c.
Proof. intros (l & -> & A1 & A2) (m & -> & B1 & B2). simpl. unfold line_eq. now rewrite !point_eq_ex. Qed.
Lemma eqrev_ex g c : ln_ok g -> ln_ok c -> equals_or_reverse_equals H (exact_seg g) (exact_seg c) = equals_or_reverse_equals h g c.
Proof.
  intros Hg Hc. unfold equals_or_reverse_equals, reverse_equals. rewrite seg_eq_ex by auto. f_equal.
  rewrite <- seg_eq_ex by auto using reverse_ok. f_equal. destruct Hc as (l & -> & _). reflexivity.
Qed.
Lemma feq_refl64 x : finite64 x -> feq x x = true.
Proof. intros Hx. rewrite <- feq_ex by auto. rewrite exact_fin by auto. simpl. unfold Reqb. destruct (Req_EM_T _ _); auto. Qed.
Lemma seg_refl g : ln_ok g -> seg_eq h g g = true.
Proof.
  intros (l & -> & (A1 & A2 & A3 & A4 & _) & (B1 & B2 & B3 & B4 & _)). simpl. unfold line_eq, point_eq. now rewrite !feq_refl64.
Qed.

(** the real geometry *)
Lemma from_ex g : ln_ok g -> from_pt H (exact_seg g) = (value (fst (get_start h g)), value (snd (get_start h g))).
Proof. intros Hg. destruct (start_fin g Hg) as [A1 A2]. unfold from_pt. rewrite start_ex by auto. cbn [fst snd]. now rewrite !exact_fin. Qed.
Lemma to_ex g : ln_ok g -> to_pt H (exact_seg g) = (value (fst (get_end h g)), value (snd (get_end h g))).
Proof. intros Hg. destruct (end_fin g Hg) as [A1 A2]. unfold to_pt. rewrite end_ex by auto. cbn [fst snd]. now rewrite !exact_fin. Qed.
Lemma seg_fin_ex g : ln_ok g -> seg_fin H (exact_seg g).
Proof.
  intros Hg. destruct (start_fin g Hg) as [A1 A2]. destruct (end_fin g Hg) as [B1 B2]. unfold seg_fin. rewrite from_ex, to_ex, start_ex, end_ex by auto. rewrite !exact_fin by auto.
  repeat split. all: destruct Hg as (l & -> & _); simpl in *; unfold pdata; rewrite !getP_ex; simpl; rewrite !exact_fin by auto; simpl; eauto.
Qed.
(** a line of the sketch is not degenerate *)
Lemma nth_ok i g : nth_error (directed h s) i = Some g -> ln_ok g.
Proof. intros E. apply directed_ok. eapply nth_error_In; eauto. Qed.
Lemma nth_ex i g : nth_error (directed h s) i = Some g -> nth_error (directed H s) i = Some (exact_seg g).
Proof. intros E. rewrite directed_ex, nth_error_map, E. reflexivity. Qed.
Lemma rev_ex g : ln_ok g -> seg_reverse (exact_seg g) = exact_seg (seg_reverse g).
Proof. intros (l & -> & _). reflexivity. Qed.
(** the position of the reverse *)
Lemma opp_at i g : nth_error (directed h s) i = Some g -> let j := opposite (length (forward h s)) i in
  j <> i /\ nth_error (directed h s) j = Some (seg_reverse g).
Proof.
  intros E j. destruct (opp_nth h s i g E) as (g' & E' & _ & _ & R). split.
  - apply opp_ne. rewrite <- (directed_length h s). apply nth_error_Some. congruence.
  - fold j in E'. rewrite E'. f_equal. destruct R as [->|R]; auto. destruct (nth_ok _ _ E) as (l & -> & _). symmetry in R. apply rev_line in R. now rewrite R.
Qed.
Lemma not_degenerate i g : nth_error (directed h s) i = Some g -> from_pt H (exact_seg g) <> to_pt H (exact_seg g).
Proof.
  intros E Q. destruct (opp_at i g E) as [N E']. pose proof (nth_ok _ _ E) as Hg. destruct (rev_pts H (exact_seg g)) as [R1 R2].
  assert (Dd : direction H (exact_seg g) = direction H (exact_seg (seg_reverse g))).
  { rewrite <- rev_ex by auto. unfold direction. now rewrite R1, R2, Q. }
  apply nth_ex in E, E'. pose proof (DA _ _ _ _ N E' E) as K. rewrite <- rev_ex in K by auto. rewrite R1 in K. specialize (K (eq_sym Q) 0%Z).
  rewrite rev_ex, <- Dd in K by auto. simpl in K. replace (direction H (exact_seg g) - direction H (exact_seg g) + 2 * PI * 0)%R with 0%R in K by ring.
  rewrite Rabs_R0 in K. assert (0 < / 2 ^ 46)%R by (apply Rinv_0_lt_compat, pow_lt; lra). simpl in *. lra.
Qed.

Hypothesis AT : accurate_atan2 L.
(** the computed direction *)
Lemma angle_ex i g : nth_error (directed h s) i = Some g ->
  finite64 (seg_start_angle h g) /\ seg_end_angle h g = seg_start_angle h g /\ (Rabs (value (seg_start_angle h g)) <= P)%R /\
  exists k, (Rabs (value (seg_start_angle h g) - direction H (exact_seg g) + 2 * PI * IZR k) <= 6 * RoundAngle.V)%R.
Proof.
  intros E. pose proof (not_degenerate i g E) as N. pose proof (nth_ok _ _ E) as Hg. unfold direction. rewrite from_ex, to_ex in * by auto. cbn [fst snd] in *.
  destruct Hg as (l & -> & (A1 & A2 & _ & _ & A3 & A4) & (B1 & B2 & _ & _ & B3 & B4)). cbn [get_start get_end seg_start_angle seg_end_angle] in *. unfold pdata in *. cbn [fst snd p_data] in *.
  set (sx := p_x (getP h (l_start l))) in *. set (sy := p_y (getP h (l_start l))) in *. set (ex := p_x (getP h (l_end l))) in *. set (ey := p_y (getP h (l_end l))) in *.
  destruct (sub_rel ey sy) as (Fy & e2 & He2 & Ey); auto; try (eapply Rle_trans; eassumption).
  destruct (sub_rel ex sx) as (Fx & e1 & He1 & Ex); auto; try (eapply Rle_trans; eassumption).
  change (ey -f sy) with (SFsub 53 1024 ey sy). change (ex -f sx) with (SFsub 53 1024 ex sx). change (@fatan2 _ AF) with (lm_atan2 L).
  set (dy := SFsub 53 1024 ey sy) in *. set (dx := SFsub 53 1024 ex sx) in *.
  assert (HU : (0 < U < / 1000)%R) by (unfold U; simpl; lra).
  assert (NZ : value dy <> 0%R \/ value dx <> 0%R).
  { apply Rabs_le_inv in He1, He2. destruct (Req_dec (value ey) (value sy)) as [Q1|Q1]; destruct (Req_dec (value ex) (value sx)) as [Q2|Q2].
    - exfalso. apply N. now rewrite Q1, Q2.
    - right. rewrite Ex. intros Z. apply Rmult_integral in Z as [Z|Z]; lra.
    - left. rewrite Ey. intros Z. apply Rmult_integral in Z as [Z|Z]; lra.
    - left. rewrite Ey. intros Z. apply Rmult_integral in Z as [Z|Z]; lra. }
  destruct (AT dy dx Fy Fx NZ) as (Fr & Br & k & Er). split; auto. split; auto. split; auto. exists k. rewrite Ex, Ey in Er.
  pose proof (atan2_pert (value ey - value sy) (value ex - value sx) e1 e2 He1 He2) as Pt. apply Rabs_le_inv in Er, Pt.
  assert (V1 : (/ 2 ^ 50 = 4 * RoundAngle.V)%R) by (unfold RoundAngle.V; simpl; lra). assert (V2 : (/ 2 ^ 51 = 2 * RoundAngle.V)%R) by (unfold RoundAngle.V; simpl; lra).
  rewrite V1 in Er. rewrite V2 in Pt. set (a1 := atan2R _ _) in *. set (a2 := atan2R _ _) in *. apply Rabs_le. lra.
Qed.
(** the computed turn *)
Lemma line_of g : ln_ok g -> exists l, g = SLine l. Proof. intros (l & -> & _). eauto. Qed.
Lemma turn_ex i j c g : nth_error (directed h s) i = Some c -> nth_error (directed h s) j = Some g -> j <> opposite (length (forward h s)) i ->
  continues h g c = true ->
  exists t, turn_angle H (exact_seg c) (exact_seg g) = Fin t /\ finite64 (turn_angle h c g) /\ (Rabs (value (turn_angle h c g) - t) <= / 2 ^ 47)%R /\
  exists k, t = (direction H (exact_seg g) - (direction H (exact_seg c) + PI) + 2 * PI * IZR k)%R.
Proof.
  intros Ec Eg Nj Cn. destruct (angle_ex i c Ec) as (F1 & Ee & B1 & k1 & X1). destruct (angle_ex j g Eg) as (F2 & _ & B2 & k2 & X2).
  pose proof (not_degenerate i c Ec) as Nc.
  pose proof (nth_ok _ _ Ec) as Oc. pose proof (nth_ok _ _ Eg) as Og.
  assert (Et : turn_angle h c g = angle_difference (frem (seg_start_angle h c +f fpi) (f2 *f fpi)) (seg_start_angle h g)) by (unfold turn_angle; now rewrite Ee).
  pose proof (turn_float L _ _ F1 F2 B1 B2) as TF. cbv zeta in TF. change (ArithF L) with AF in TF. rewrite <- Et in TF. destruct TF as (Ft & Rt & k3 & X3). clear Et.
  destruct (line_of c Oc) as [lc Elc]. destruct (line_of g Og) as [lg Elg].
  assert (Xc : exact_seg c = SLine lc) by now rewrite Elc. assert (Xg : exact_seg g = SLine lg) by now rewrite Elg.
  destruct (turn_lemma H lc lg) as (t & k4 & E4 & R4 & X4). { rewrite <- Xc; now apply seg_fin_ex. } { rewrite <- Xg; now apply seg_fin_ex. }
  rewrite <- Xc, <- Xg in E4, X4.
  exists t. split; [exact E4|]. split; [exact Ft|]. split; [|exists k4; exact X4].
  (* the candidate is apart from the reverse of [c] *)
  destruct (opp_at i c Ec) as [_ Eo].
  assert (Q : from_pt H (exact_seg g) = from_pt H (exact_seg (seg_reverse c))).
  { rewrite <- rev_ex by auto. destruct (rev_pts H (exact_seg c)) as [-> _]. unfold continues in Cn. rewrite from_ex, to_ex by auto.
    rewrite <- v2eq_ex in Cn by (auto using start_fin, end_fin). destruct (start_fin g Og), (end_fin c Oc). rewrite !exact_fin in Cn by auto.
    symmetry. apply v2eq_F2. exact Cn. }
  apply nth_ex in Eo. assert (Eg' := nth_ex _ _ Eg). pose proof (DA _ _ _ _ Nj Eg' Eo Q) as Ap.
  destruct (C42_direction_lemma H lc) as [k5 X5]. { rewrite <- Xc. exact Nc. }
  rewrite <- Xc, rev_ex in X5 by auto.
  assert (Lo : forall m, (/ 2 ^ 46 < Rabs (t + 2 * PI * IZR m))%R).
  { intros m. specialize (Ap (m + k4 + k5)%Z). rewrite X5, !plus_IZR in Ap. rewrite X4.
    match goal with |- (_ < Rabs ?a)%R => match type of Ap with (_ < Rabs ?b)%R => replace a with b by ring end end. exact Ap. }
  assert (E46 : (/ 2 ^ 46 = 64 * RoundAngle.V)%R) by (unfold RoundAngle.V; simpl; lra). assert (E47 : (/ 2 ^ 47 = 32 * RoundAngle.V)%R) by (unfold RoundAngle.V; simpl; lra).
  rewrite E46 in Lo. rewrite E47. pose proof P_pi as PP. assert (VP : (0 < RoundAngle.V < / 1000)%R) by (unfold RoundAngle.V; simpl; lra).
  (* t is within 27 V of the computed turn up to whole turns *)
  set (r := value (turn_angle h c g)) in *. apply Rabs_le_inv in X1, X2, X3.
  assert (Z : exists m, (Rabs (r - t + 2 * PI * IZR m) <= 27 * RoundAngle.V)%R).
  { exists (k3 + k2 - k1 + k4)%Z. rewrite !plus_IZR, minus_IZR, !plus_IZR, X4. apply Rabs_le. lra. }
  destruct Z as [m Z]. apply Rabs_le_inv in Z. pose proof (Lo 0%Z) as L0. pose proof (Lo (-1)%Z) as L1. simpl in L0, L1.
  replace (t + 2 * PI * 0)%R with t in L0 by ring. rewrite Rabs_pos_eq in L0 by lra. rewrite Rabs_left1 in L1 by lra. pose proof P_range as PR.
  assert (m = 0%Z) as ->.
  { destruct (Z.eq_dec m 0) as [|Nm]; auto. exfalso. destruct (Z_lt_le_dec m 0) as [Lm|Lm].
    - assert (Hm : (IZR m <= -1)%R) by (apply (IZR_le m (-1)); lia). assert (2 * PI * IZR m <= - (2 * PI))%R by nra. lra.
    - assert (Hm : (1 <= IZR m)%R) by (apply (IZR_le 1 m); lia). assert (2 * PI <= 2 * PI * IZR m)%R by nra. lra. }
  simpl in Z. apply Rabs_le. lra.
Qed.

(** ** The same walks *)
Definition ex (p : nat * seg spec_float) : nat * seg xR := (fst p, exact_seg (snd p)).
Let D := directed h s.
Lemma cand_opp used i j c g : nth_error D i = Some c -> cand h D used c j g -> j <> opposite (length (forward h s)) i.
Proof.
  intros Ec (Eg & _ & _ & Q) ->. destruct (opp_at i c Ec) as [_ Eo]. unfold D in Eg. rewrite Eo in Eg. injection Eg as <-.
  unfold equals_or_reverse_equals, reverse_equals in Q. apply orb_false_iff in Q as [_ Q]. rewrite seg_refl in Q; [discriminate|].
  apply reverse_ok. eapply nth_ok; eauto.
Qed.
Definition fm (c : seg spec_float) (m : (nat * seg spec_float) * spec_float) : (nat * seg xR) * xR :=
  (ex (fst m), turn H (exact_seg c) (exact_seg (snd (fst m)))).
Lemma combine_map {T1 T2} (f : T1 -> T2) : forall (l : list T1) b, combine (seq b (length l)) (map f l) = map (fun p => (fst p, f (snd p))) (combine (seq b (length l)) l).
Proof. induction l as [|x l IH]; intros b; simpl; auto. now rewrite IH. Qed.
Lemma matches_ex i c used : nth_error D i = Some c -> next_matches H (map exact_seg D) (exact_seg c) used = map (fm c) (next_matches h D c used).
Proof.
  intros Ec. pose proof (nth_ok _ _ Ec) as Oc. unfold next_matches. rewrite map_length, combine_map. rewrite !flat_map_concat_map, concat_map, !map_map. f_equal.
  apply map_ext_in. intros [j g] Hj. apply in_enum0 in Hj. pose proof (nth_ok _ _ Hj) as Og. cbn [fst snd].
  destruct (existsb _ _); auto. rewrite continues_ex, eqrev_ex by auto. destruct (_ && _); auto.
Qed.
Lemma matches_nodup h' (D' : list (seg spec_float)) c used : NoDup (map (fun m => fst (fst m)) (next_matches h' D' c used)).
Proof.
  unfold next_matches. generalize (frem (seg_end_angle h' c +f fpi) (f2 *f fpi)). intros te.
  assert (G : forall l b, let r := map (fun m => fst (fst m)) (flat_map (fun p : nat * seg spec_float => if existsb (Nat.eqb (fst p)) used then [] else
      if continues h' (snd p) c && negb (equals_or_reverse_equals h' (snd p) c) then [(p, angle_difference te (seg_start_angle h' (snd p)))] else [])
      (combine (seq b (length l)) l)) in NoDup r /\ Forall (fun i => b <= i) r).
  { induction l as [|x l IH]; intros b; cbn [length seq combine flat_map map]; [split; constructor|]. destruct (IH (S b)) as [N B].
    assert (B' : forall r, Forall (fun i => S b <= i) r -> Forall (fun i => b <= i) r) by (intros r; apply Forall_impl; intros; lia).
    cbn [fst snd]. destruct (existsb _ _); [split; auto|]. destruct (_ && _); [|split; auto]. cbn [app map fst]. split; constructor; auto.
    intros Hb. rewrite Forall_forall in B. apply B in Hb. lia. }
  apply G.
Qed.
Lemma gt_agree i c used a b : nth_error D i = Some c -> In a (next_matches h D c used) -> In b (next_matches h D c used) -> fst (fst a) <> fst (fst b) ->
  fgt (snd (fm c a)) (snd (fm c b)) = fgt (snd a) (snd b).
Proof.
  destruct a as [[j g] t], b as [[j' g'] t']. intros Ec Ha Hb N. cbn [fst snd] in *. apply in_matches in Ha as [Ca ->], Hb as [Cb ->].
  pose proof (cand_opp _ _ _ _ _ Ec Ca) as Na. pose proof (cand_opp _ _ _ _ _ Ec Cb) as Nb. destruct Ca as (Eg & _ & Cg & _), Cb as (Eg' & _ & Cg' & _).
  destruct (turn_ex i j c g Ec Eg Na Cg) as (u & Eu & Fu & Xu & k & Ku). destruct (turn_ex i j' c g' Ec Eg' Nb Cg') as (u' & Eu' & Fu' & Xu' & k' & Ku').
  unfold fm. cbn [fst snd]. unfold turn. unfold turn_angle in *. rewrite Eu, Eu'. rewrite fgt_R.
  set (r := angle_difference _ (seg_start_angle h g)) in *. set (r' := angle_difference _ (seg_start_angle h g')) in *.
  change (fgt r r') with (SFltb r' r). rewrite ltb_val by auto.
  assert (Q : from_pt H (exact_seg g) = from_pt H (exact_seg g')).
  { pose proof (nth_ok _ _ Eg) as Og. pose proof (nth_ok _ _ Eg') as Og'. pose proof (nth_ok _ _ Ec) as Oc.
    unfold continues in Cg, Cg'. rewrite <- v2eq_ex in Cg, Cg' by (auto using start_fin, end_fin).
    destruct (start_fin g Og), (end_fin c Oc), (start_fin g' Og'). rewrite !exact_fin in Cg, Cg' by auto. rewrite !from_ex by auto.
    apply (v2eq_F2 (_, _) (_, _)) in Cg. apply (v2eq_F2 (_, _) (_, _)) in Cg'. congruence. }
  pose proof (DA _ _ _ _ N (nth_ex _ _ Eg) (nth_ex _ _ Eg') Q (k - k')%Z) as Ap.
  replace (direction H (exact_seg g) - direction H (exact_seg g') + 2 * PI * IZR (k - k'))%R with (u - u')%R in Ap by (rewrite Ku, Ku', minus_IZR; ring).
  assert (E46 : (/ 2 ^ 46 = 2 * / 2 ^ 47)%R) by (simpl; lra). rewrite E46 in Ap. apply Rabs_le_inv in Xu, Xu'. set (w := (/ 2 ^ 47)%R) in *. unfold Rltb.
  unfold Rabs in Ap. destruct (Rcase_abs (u - u')); destruct (Rlt_dec u' u), (Rlt_dec (value r') (value r)); auto; lra.
Qed.
Lemma reduce_ex c l : NoDup (map (fun m => fst (fst m)) l) ->
  (forall a b, In a l -> In b l -> fst (fst a) <> fst (fst b) -> fgt (snd (fm c a)) (snd (fm c b)) = fgt (snd a) (snd b)) ->
  reduce_max (map (fm c) l) = option_map ex (reduce_max l).
Proof.
  destruct l as [|x l]; [reflexivity|]. intros N Hl. cbn [map reduce_max option_map]. f_equal.
  enough (G : fold_left (fun a b => if fgt (snd a) (snd b) then a else b) (map (fm c) l) (fm c x) = fm c (fold_left (fun a b => if fgt (snd a) (snd b) then a else b) l x)) by now rewrite G.
  revert x N Hl. induction l as [|y l IH]; intros x N Hl; [reflexivity|]. cbn [map fold_left]. cbn [map] in N. inversion N as [|? ? N1 N2]; subst. inversion N2 as [|? ? N3 N4]; subst.
  rewrite Hl; [|now left | right; now left | intros E; apply N1; left; now symmetry]. destruct (fgt (snd x) (snd y)).
  - apply IH; [constructor; auto; intros Hx; apply N1; now right|]. intros a b Ha Hb. apply Hl; [destruct Ha; [left; auto | right; now right] | destruct Hb; [left; auto | right; now right]].
  - apply IH; [constructor; auto|]. intros a b Ha Hb. apply Hl; now right.
Qed.
Lemma next_ex i c used : nth_error D i = Some c -> find_next_segment H (map exact_seg D) (exact_seg c) used = option_map ex (find_next_segment h D c used).
Proof.
  intros Ec. unfold find_next_segment. rewrite (matches_ex i) by auto. apply reduce_ex; [apply matches_nodup|]. intros a b. now apply (gt_agree i).
Qed.
Lemma walk_ex used p0 : fin2 p0 -> forall n acc c, consistent D c ->
  walk H (map exact_seg D) used (exact64 (fst p0), exact64 (snd p0)) n (map ex acc) (ex c) = option_map (map ex) (walk h D used p0 n acc c).
Proof.
  intros F0. induction n as [|n IH]; intros acc c Hc; [reflexivity|]. cbn [walk]. pose proof (nth_ok _ _ Hc) as Oc. cbn [ex snd].
  rewrite end_ex, v2eq_ex by auto using end_fin. fold (ex c). assert (Ea : map ex acc ++ [ex c] = map ex (acc ++ [c])) by now rewrite map_app. rewrite Ea.
  destruct (v2eq _ _); auto. rewrite (next_ex (fst c)) by exact Hc. destruct (find_next_segment h D (snd c) used) as [[j g]|] eqn:En; [|reflexivity]. cbn [option_map].
  apply IH. apply next_cand in En as (En & _). exact En.
Qed.
Lemma loop_ex : ring_loop H (map exact_seg D) = (fst (ring_loop h D), map (map ex) (snd (ring_loop h D))).
Proof.
  unfold ring_loop. rewrite map_length, combine_map. fold ex.
  assert (G : forall l st, (forall p, In p l -> consistent D p) -> fold_left (ring_step H (map exact_seg D)) (map ex l) (fst st, map (map ex) (snd st)) =
    (fst (fold_left (ring_step h D) l st), map (map ex) (snd (fold_left (ring_step h D) l st)))).
  { induction l as [|p l IH]; intros st Hl; [reflexivity|]. cbn [map fold_left]. rewrite <- IH by (intros; apply Hl; now right). f_equal.
    assert (Hp : consistent D p) by (apply Hl; now left). pose proof (nth_ok _ _ Hp) as Op.
    destruct st as [used rings]. unfold ring_step. cbn [ex fst snd]. destruct (existsb _ _); auto.
    rewrite map_length, start_ex by auto. pose proof (walk_ex used _ (start_fin _ Op) (length D - 1) [] p Hp) as W. cbn [map] in W. fold (ex p). rewrite W. clear W.
    destruct (walk h D used _ _ [] p) as [r|]; [|reflexivity]. cbn [option_map fst snd]. f_equal.
    - f_equal. rewrite map_map. reflexivity.
    - now rewrite map_app. }
  apply (G _ ([], [])). intros [j g] Hp. apply in_enum0 in Hp. exact Hp.
Qed.
Lemma unused_ex : snd (find_rings H s) = map exact_seg (snd (find_rings h s)).
Proof.
  unfold find_rings. rewrite !all_directed, !init_forward, directed_ex, forward_ex. fold D. rewrite loop_ex. destruct (ring_loop h D) as [used walks]. cbn [fst snd].
  unfold unused_segments. rewrite map_length, combine_map, !flat_map_concat_map, concat_map, !map_map. f_equal. apply map_ext. intros [j g]. cbn [fst snd]. now destruct (existsb _ _).
Qed.
Lemma turns_H : turns_ok H (directed H s).
Proof.
  intros a b Ha Hb. rewrite directed_ex in Ha, Hb. apply in_map_iff in Ha as (a' & <- & Ha), Hb as (b' & <- & Hb). apply directed_ok in Ha, Hb.
  pose proof (seg_fin_ex _ Ha) as Fa. pose proof (seg_fin_ex _ Hb) as Fb. destruct Ha as (la & -> & _), Hb as (lb & -> & _).
  destruct (turn_lemma H la lb Fa Fb) as (t & k & E & _). unfold no_nan. cbn [exact_seg]. rewrite E. simpl. unfold Reqb. destruct (Req_EM_T t t); auto.
Qed.
Lemma rings_ex : (forall ws w, all_walks H (directed H s) (length (directed H s)) ws -> In w ws ->
     forall l, at_positions (directed H s) w = map exact_seg l -> Forall ln_ok l -> length l = length w -> fgt (signed_area H (RSegments (map exact_seg l))) f0 = fgt (signed_area h (RSegments l)) f0) ->
  (forall c, In c (circles h s) -> fgt (signed_area H (RCircle (exact_circle c))) f0 = fgt (signed_area h (RCircle c)) f0) ->
  Permutation (fst (find_rings H s)) (map exact_ring (fst (find_rings h s))).
Proof.
  intros HS HC. destruct (ring_loop_greedy h D) as (ws & El & G).
  assert (Eh : fst (find_rings h s) = filter (fun r => fgt (signed_area h r) f0) (sort_rings h (map (fun w => RSegments (map snd w)) ws ++ map RCircle (circles h s)))).
  { unfold find_rings. rewrite all_directed, init_forward, circle_rings_spec. fold D. rewrite El. reflexivity. }
  assert (EH : ring_loop H (directed H s) = (map fst (concat ws), map (map ex) ws)) by (rewrite directed_ex; fold D; rewrite loop_ex, El; reflexivity).
  assert (Ec : circles H s = map exact_circle (circles h s)).
  { unfold circles. rewrite !flat_map_concat_map, concat_map, map_map. f_equal. apply map_ext. intros [id c]. destruct c as [l|l|l|l]; cbn [snd map]; auto. now rewrite getC_ex. }
  assert (EH' : fst (find_rings H s) = filter (fun r => fgt (signed_area H r) f0) (sort_rings H (map exact_ring (map (fun w => RSegments (map snd w)) ws ++ map RCircle (circles h s))))).
  { unfold find_rings. rewrite all_directed, init_forward, circle_rings_spec, EH. cbn [fst]. do 2 f_equal. rewrite map_app, !map_map, Ec, map_map. f_equal.
    apply map_ext. intros w. cbn [exact_ring]. f_equal. rewrite !map_map. reflexivity. }
  rewrite Eh, EH'. set (all := map (fun w : list (nat * seg spec_float) => RSegments (map snd w)) ws ++ map RCircle (circles h s)) in *.
  eapply perm_trans; [apply filter_perm, sort_perm|].
  assert (EF : filter (fun r => fgt (signed_area H r) f0) (map exact_ring all) = map exact_ring (filter (fun r => fgt (signed_area h r) f0) all)).
  { assert (Q : forall r, In r all -> fgt (signed_area H (exact_ring r)) f0 = fgt (signed_area h r) f0).
    { intros r Hr. apply in_app_or in Hr as [Hr|Hr]; apply in_map_iff in Hr as (w & <- & Hw); [|apply HC; auto]. cbn [exact_ring].
      destruct (ring_loop_greedy H (directed H s)) as (ws' & El' & G'). rewrite EH in El'. injection El' as _ E'. subst ws'.
      pose proof (greedy_all strict_weak_R H (directed H s) turns_H _ _ (le_n _) G') as AW.
      destruct (greedy_nodup _ _ _ _ G) as [_ C]. destruct (greedy_nodup _ _ _ _ G') as [_ C']. rewrite Forall_forall in C, C'.
      apply (HS _ (map fst (map ex w)) AW).
      - apply in_map_iff. exists (map ex w). split; auto. now apply in_map.
      - rewrite at_positions_map.
        + rewrite !map_map. reflexivity.
        + apply Forall_forall. intros x Hx. apply C'. apply in_concat. exists (map ex w). split; auto. now apply in_map.
      - apply Forall_forall. intros g Hg. apply in_map_iff in Hg as (x & <- & Hx). apply (nth_ok (fst x)). apply C. apply in_concat. eauto.
      - now rewrite !map_length. }
    clear -Q. induction all as [|r l IH]; [reflexivity|]. cbn [map filter]. rewrite Q by now left. rewrite IH by (intros; apply Q; now right). destruct (fgt _ _); reflexivity. }
  rewrite EF. apply Permutation_map, Permutation_sym. apply filter_perm, sort_perm.
Qed.
End Walk.
