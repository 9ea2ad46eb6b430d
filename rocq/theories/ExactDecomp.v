(** * Decomposition in exact arithmetic *)
From Coq Require Import List ZArith NArith Arith Bool Lia Reals Lra Permutation Sorted.
From Verif Require Import Arith Vec Prim Cons Sketch Decomp Spec ArithR ExactSpec DecompSpec SpecLemmas ExactLemmas DecompLemmas OrderLemmas WalkLemmas.
Import ListNotations.

(** every registered primitive and every point it refers to has finite parameters *)
Definition geo_finite (h : heap xR) (s : sketch) : Prop := forall c, registered s c ->
  all_finite (prim_data h c) = true /\ forall r, In r (prim_refs h c) -> all_finite (prim_data h r) = true.
Definition from_pt (h : heap xR) (g : seg xR) : R * R := (vx (fst (get_start h g)), vx (snd (get_start h g))).
Definition to_pt (h : heap xR) (g : seg xR) : R * R := (vx (fst (get_end h g)), vx (snd (get_end h g))).
(** half the sum of the cross products of start and end points *)
Definition shoelace (h : heap xR) (l : list (seg xR)) : R :=
  fold_right (fun g a => crossR (from_pt h g) (to_pt h g) + a)%R 0%R l / 2.
(** start, end and the angles are finite *)
Definition seg_fin (h : heap xR) (g : seg xR) : Prop :=
  get_start h g = F2 (from_pt h g) /\ get_end h g = F2 (to_pt h g) /\
  (exists a, seg_start_angle h g = Fin a) /\ (exists a, seg_end_angle h g = Fin a).

Lemma seg_fin_reverse h g : seg_fin h g -> seg_fin h (seg_reverse g).
Proof.
  intros (H1 & H2 & H3 & H4). destruct g as [l|a].
  - split; [exact H2|]. split; [exact H1|]. simpl in *. unfold pdata, p_data in *. unfold from_pt, to_pt in *. simpl in *.
    unfold pdata, p_data in *. injection H1 as E1 E2. injection H2 as E3 E4. rewrite E1, E2, E3, E4. simpl. split; eauto.
  - split; [exact H2|]. split; [exact H1|]. simpl in *. split; auto.
Qed.

Lemma forward_fin h s : valid h s -> geo_finite h s -> forall g, In g (forward h s) -> seg_fin h g.
Proof.
  intros V G g Hg. apply in_forward in Hg as (c & id & Hc & E).
  assert (Hr : registered s c) by (apply (valid_reg _ _ _ V); now apply (in_map snd) in Hc).
  destruct (G c Hr) as [Hd Hp]. destruct c as [l|l|l|l]; simpl in E; try discriminate; injection E as <-.
  - assert (H1 := pdata_R _ _ (Hp (PPoint (l_start (getL h l))) ltac:(simpl; auto))).
    assert (H2 := pdata_R _ _ (Hp (PPoint (l_end (getL h l))) ltac:(simpl; auto))).
    unfold seg_fin, from_pt, to_pt. cbn [get_start get_end seg_start_angle seg_end_angle]. rewrite H1, H2. repeat split; eexists; reflexivity.
  - assert (Hc1 := Hp (PPoint (a_center (getA h l))) ltac:(simpl; auto)).
    assert (H1 := arc_start_R _ _ Hd Hc1). assert (H2 := arc_end_R _ _ Hd Hc1). apply arc_R in Hd as (E1 & E2 & E3).
    unfold seg_fin, from_pt, to_pt. cbn [get_start get_end seg_start_angle seg_end_angle]. rewrite H1, H2, E2, E3. repeat split; eexists; reflexivity.
Qed.
Lemma directed_fin h s : valid h s -> geo_finite h s -> forall g, In g (directed h s) -> seg_fin h g.
Proof.
  intros V G g Hg. unfold directed in Hg. apply in_app_or in Hg as [Hg|Hg]; [eapply forward_fin; eauto|].
  apply in_map_iff in Hg as (x & <- & Hx). apply seg_fin_reverse. eapply forward_fin; eauto.
Qed.
Lemma fgt_R a b : fgt (Fin a) (Fin b) = Rltb b a. Proof. reflexivity. Qed.
Lemma ftau_R : ftau = Fin (2 * PI). Proof. reflexivity. Qed.
Lemma two_pi : f2 *f fpi = Fin (2 * PI). Proof. unfold f2. simpl. f_equal. lra. Qed.
Lemma diff_fin a b : exists d, angle_difference (Fin a) (Fin b) = Fin d.
Proof.
  unfold angle_difference. rewrite ftau_R, f0_R.
  repeat match goal with |- context [if ?c then _ else _] => destruct c end; simpl; eauto.
Qed.
Lemma rem_fin a : exists d, frem (Fin a) (f2 *f fpi) = Fin d.
Proof. rewrite two_pi. simpl. pose proof PI_RGT_0. destruct (Req_EM_T _ _); [lra|eauto]. Qed.
Lemma turn_fin h a b : seg_fin h a -> seg_fin h b -> exists t, turn_angle h a b = Fin t.
Proof.
  intros (_ & _ & _ & ea & Ea) (_ & _ & (sb & Eb) & _). unfold turn_angle. rewrite Ea, Eb. change (Fin ea +f fpi) with (Fin (ea + PI)).
  destruct (rem_fin (ea + PI)) as [r ->]. apply diff_fin.
Qed.
Lemma geo_turns_ok h s : valid h s -> geo_finite h s -> turns_ok h (directed h s).
Proof.
  intros V G a b Ha Hb. destruct (turn_fin h a b) as [t E]; try (eapply directed_fin; eauto). rewrite E. unfold no_nan. simpl. unfold Reqb.
  destruct (Req_EM_T t t); auto.
Qed.
Lemma finite_geo h s : refs_closed h s -> finite_data h s -> geo_finite h s.
Proof.
  intros [C _] Fd c Hc. assert (G : forall r, registered s r -> all_finite (prim_data h r) = true).
  { intros r Hr. apply forallb_forall. intros x Hx. assert (Q := Fd r Hr). rewrite Forall_forall in Q. now apply Q. }
  split; [auto|]. intros r Hr. apply G. eapply C; eauto.
Qed.

(** C44 *)
Lemma Rltb_true a b : Rltb a b = true -> (a < b)%R. Proof. unfold Rltb. destruct (Rlt_dec a b); [auto|discriminate]. Qed.
Lemma Rltb_false a b : Rltb a b = false -> (b <= a)%R. Proof. unfold Rltb. destruct (Rlt_dec a b); [discriminate|intros; lra]. Qed.
Lemma norm_angle a : (- (2 * PI) <= a <= 4 * PI)%R -> exists r k,
  (let x := if fgt (Fin a) ftau then Fin a -f ftau else Fin a in if flt x f0 then x +f ftau else x) = Fin r /\
  (0 <= r <= 2 * PI)%R /\ r = (a + 2 * PI * IZR k)%R.
Proof.
  intros H. rewrite ftau_R, f0_R, fgt_R. cbv zeta. pose proof PI_RGT_0 as P. destruct (Rltb (2 * PI) a) eqn:E.
  - apply Rltb_true in E. rewrite sub_R, lt_R. destruct (Rltb (a - 2 * PI) 0) eqn:E2; [apply Rltb_true in E2; lra|].
    exists (a - 2 * PI)%R, (-1)%Z. split; auto. split; [lra|]. lra.
  - apply Rltb_false in E. rewrite lt_R. destruct (Rltb a 0) eqn:E2.
    + apply Rltb_true in E2. exists (a + 2 * PI)%R, 1%Z. split; auto. split; lra.
    + apply Rltb_false in E2. exists a, 0%Z. split; auto. split; lra.
Qed.
Lemma C44_lemma a0 a1 : (- (2 * PI) <= a0 <= 4 * PI)%R -> (- (2 * PI) <= a1 <= 4 * PI)%R ->
  exists d k, angle_difference (Fin a0) (Fin a1) = Fin d /\ (0 <= d <= 2 * PI)%R /\ d = (a1 - a0 + 2 * PI * IZR k)%R.
Proof.
  intros H0 H1. unfold angle_difference. destruct (norm_angle a0 H0) as (r0 & k0 & E0 & B0 & R0). destruct (norm_angle a1 H1) as (r1 & k1 & E1 & B1 & R1).
  cbv zeta in *. rewrite E0, E1. rewrite sub_R, ftau_R, f0_R, fgt_R. pose proof PI_RGT_0 as P.
  destruct (Rltb (2 * PI) (r1 - r0)) eqn:E; [apply Rltb_true in E; lra|]. rewrite lt_R. destruct (Rltb (r1 - r0) 0) eqn:E2.
  - apply Rltb_true in E2. exists (r1 - r0 + 2 * PI)%R, (k1 - k0 + 1)%Z. split; auto. split; [lra|]. rewrite plus_IZR, minus_IZR. lra.
  - apply Rltb_false in E2. exists (r1 - r0)%R, (k1 - k0)%Z. split; auto. split; [lra|]. rewrite minus_IZR. lra.
Qed.

(** the turn angle of two lines *)
Lemma Rtrunc_bound x : (Rabs (x - Rtrunc x) < 1)%R.
Proof.
  unfold Rtrunc. pose proof (base_Int_part x) as [B1 B2]. pose proof (base_Int_part (-x)) as [B3 B4].
  destruct (Rlt_dec x 0); unfold Rabs; destruct (Rcase_abs _); lra.
Qed.
Lemma Rtrunc_int x : exists k, Rtrunc x = IZR k.
Proof. unfold Rtrunc. destruct (Rlt_dec x 0); [exists (- Int_part (- x))%Z; now rewrite opp_IZR | eauto]. Qed.
Lemma rem_R a : exists r k, frem (Fin a) (f2 *f fpi) = Fin r /\ (- (2 * PI) < r < 2 * PI)%R /\ r = (a + 2 * PI * IZR k)%R.
Proof.
  rewrite two_pi. pose proof PI_RGT_0 as P. simpl. destruct (Req_EM_T _ _) as [|_]; [lra|].
  destruct (Rtrunc_int (a / (2 * PI))) as [k Ek]. exists (a - 2 * PI * Rtrunc (a / (2 * PI)))%R, (- k)%Z. split; [f_equal; lra|].
  split.
  - pose proof (Rtrunc_bound (a / (2 * PI))) as B. apply Rabs_def2 in B.
    assert (E : (a = 2 * PI * (a / (2 * PI)))%R) by (field; lra). rewrite E at 1 3. nra.
  - rewrite Ek, opp_IZR. lra.
Qed.
Lemma atan2R_range y x : (- PI <= atan2R y x <= PI)%R.
Proof.
  pose proof PI_RGT_0 as P. unfold atan2R. destruct (Rlt_dec 0 x); [pose proof (atan_bound (y / x)); lra|].
  destruct (Rlt_dec x 0) as [Hx|].
  - pose proof (atan_bound (y / x)) as B. destruct (Rlt_dec y 0) as [Hy|Hy].
    + assert (0 < y / x)%R. { replace (y / x)%R with ((- y) / (- x))%R by (field; lra). apply Rdiv_lt_0_compat; lra. }
      pose proof (atan_increasing 0 (y / x) H). rewrite atan_0 in *. lra.
    + assert (y / x <= 0)%R. { replace (y / x)%R with (- (y / - x))%R by (field; lra). assert (0 <= y / - x)%R; [|lra]. apply Rmult_le_pos; [lra|]. left. apply Rinv_0_lt_compat. lra. }
      assert (atan (y / x) <= 0)%R. { destruct H as [H| ->]; [|rewrite atan_0; lra]. pose proof (atan_increasing _ 0 H). rewrite atan_0 in *. lra. } lra.
  - destruct (Rlt_dec 0 y); [lra|]. destruct (Rlt_dec y 0); lra.
Qed.
(** [g] is a line with finite end points; [direction] is its polar angle in [-pi, pi] *)
Definition direction (h : heap xR) (g : seg xR) : R :=
  atan2R (snd (to_pt h g) - snd (from_pt h g)) (fst (to_pt h g) - fst (from_pt h g)).
Lemma line_angle h l : seg_fin h (SLine l) -> seg_start_angle h (SLine l) = Fin (direction h (SLine l)).
Proof. intros (H1 & H2 & _). simpl in H1, H2. unfold seg_start_angle. rewrite H1, H2. reflexivity. Qed.
Lemma turn_lemma h l m : seg_fin h (SLine l) -> seg_fin h (SLine m) -> exists t k,
  turn_angle h (SLine l) (SLine m) = Fin t /\ (0 <= t <= 2 * PI)%R /\
  t = (direction h (SLine m) - (direction h (SLine l) + PI) + 2 * PI * IZR k)%R.
Proof.
  intros Hl Hm. unfold turn_angle. change (seg_end_angle h (SLine l)) with (seg_start_angle h (SLine l)). rewrite !line_angle by auto.
  change (Fin (direction h (SLine l)) +f fpi) with (Fin (direction h (SLine l) + PI)).
  destruct (rem_R (direction h (SLine l) + PI)) as (r & k & -> & B & Er). pose proof (atan2R_range (snd (to_pt h (SLine m)) - snd (from_pt h (SLine m))) (fst (to_pt h (SLine m)) - fst (from_pt h (SLine m)))) as Q.
  fold (direction h (SLine m)) in Q. pose proof PI_RGT_0 as P.
  destruct (C44_lemma r (direction h (SLine m))) as (d & k2 & -> & B2 & E2); [lra|lra|]. exists d, (k2 - k)%Z. split; auto. split; auto.
  rewrite E2, Er, minus_IZR. lra.
Qed.

(** ** Areas *)
Lemma crossR_anti u v : crossR u v = (- crossR v u)%R. Proof. unfold crossR. lra. Qed.
Lemma area_R h l : Forall (seg_fin h) l -> signed_area h (RSegments l) = Fin (shoelace h l).
Proof.
  intros H. unfold signed_area, shoelace.
  assert (G : forall l a, Forall (seg_fin h) l -> fold_left (fun area s => let st := get_start h s in let en := get_end h s in
      area +f (fst st *f snd en -f fst en *f snd st)) l (Fin a) = Fin (a + fold_right (fun g a => crossR (from_pt h g) (to_pt h g) + a) 0 l)%R).
  { clear. induction l as [|g l IH]; intros a H; cbn [fold_left fold_right]; [f_equal; lra|]. inversion H as [|? ? (E1 & E2 & _) Hl]; subst.
    cbv zeta. rewrite E1, E2. cbn [F2 fst snd]. rewrite !mul_R, sub_R, add_R, IH by auto. f_equal. unfold crossR. simpl. lra. }
  rewrite f0_R, G by auto. unfold f2. simpl. destruct (Req_EM_T _ _) as [E|_]; [lra|]. f_equal. lra.
Qed.
Lemma rev_pts h g : from_pt h (seg_reverse g) = to_pt h g /\ to_pt h (seg_reverse g) = from_pt h g.
Proof. destruct g; split; reflexivity. Qed.
Definition sumR (f : seg xR -> R) (l : list (seg xR)) : R := fold_right (fun g a => f g + a)%R 0%R l.
Lemma sumR_app f l m : sumR f (l ++ m) = (sumR f l + sumR f m)%R.
Proof. induction l as [|x l IH]; simpl; [lra|]. rewrite IH. lra. Qed.
Lemma shoelace_sum h l : shoelace h l = (sumR (fun g => crossR (from_pt h g) (to_pt h g)) l / 2)%R. Proof. reflexivity. Qed.
Definition ring_reverse (l : list (seg xR)) : list (seg xR) := map seg_reverse (rev l).
Lemma shoelace_reverse h l : shoelace h (ring_reverse l) = (- shoelace h l)%R.
Proof.
  rewrite !shoelace_sum. unfold ring_reverse. assert (G : forall l, sumR (fun g => crossR (from_pt h g) (to_pt h g)) (map seg_reverse (rev l)) = (- sumR (fun g => crossR (from_pt h g) (to_pt h g)) l)%R); [|rewrite G; lra].
  clear l. induction l as [|g l IH]; simpl; [lra|]. rewrite map_app, sumR_app, IH. simpl. destruct (rev_pts h g) as [-> ->]. rewrite (crossR_anti (to_pt h g)). lra.
Qed.
Lemma shoelace_app h l m : shoelace h (l ++ m) = shoelace h (m ++ l).
Proof. rewrite !shoelace_sum, !sumR_app. lra. Qed.
Lemma F2_inj u v : F2 u = F2 v -> u = v.
Proof. destruct u, v. unfold F2. simpl. intros H. injection H as -> ->. reflexivity. Qed.
Lemma v2eq_F2 u v : v2eq (F2 u) (F2 v) = true <-> u = v.
Proof.
  destruct u as [a b], v as [c d]. unfold v2eq, F2. simpl. unfold Reqb. destruct (Req_EM_T a c), (Req_EM_T b d); simpl; split; intros H; try discriminate; subst; auto; congruence.
Qed.
(** closed chains of fewer than three segments enclose nothing *)
Lemma small_ring h l : Forall (seg_fin h) l -> closed_chain h l -> length l < 3 -> shoelace h l = 0%R.
Proof.
  intros Fl (x & t & E & C & L) Hn. assert (E' := E). clear E'. subst l. destruct t as [|y [|z t]]; simpl in Hn; try lia; unfold shoelace; simpl in *.
  - inversion Fl as [|? ? (E1 & E2 & _) _]; subst. rewrite E1, E2 in L. apply v2eq_F2 in L. rewrite L. unfold crossR. lra.
  - inversion Fl as [|? ? (E1 & E2 & _) F2']; subst. inversion F2' as [|? ? (E3 & E4 & _) _]; subst. destruct C as [C _].
    rewrite E2, E3 in C. rewrite E4, E1 in L. apply v2eq_F2 in C, L. rewrite C, L. unfold crossR. lra.
Qed.
(** a closed chain of any length has the area of the polygon of its start points *)
Lemma closed_next h l : Forall (seg_fin h) l -> closed_chain h l ->
  forall i g g', nth_error l i = Some g -> nth_error l (S i mod length l) = Some g' -> to_pt h g = from_pt h g'.
Proof.
  intros Fl (x & t & E & C & L) i g g' Hg Hg'. assert (Hi : i < length l) by (apply nth_error_Some; congruence).
  rewrite Forall_forall in Fl. assert (Fg := Fl g (nth_error_In _ _ Hg)). assert (Fg' := Fl g' (nth_error_In _ _ Hg')).
  destruct Fg as (_ & Eg & _), Fg' as (Eg' & _). apply v2eq_F2. rewrite <- Eg, <- Eg'.
  destruct (Nat.eq_dec (S i) (length l)) as [Hl|Hl].
  - rewrite Hl, Nat.mod_same in Hg' by lia. assert (g' = x) by (subst l; simpl in Hg'; congruence). subst g'.
    assert (g = last l x); [|congruence]. clear - Hg Hl. apply nth_error_nth with (d := x) in Hg. rewrite <- Hg. clear Hg.
    assert (G : forall (l : list (seg xR)) i x, S i = length l -> nth i l x = last l x).
    { clear. induction l as [|y l IH]; intros i x H; simpl in *; [discriminate|]. injection H as H. destruct l as [|z l]; [subst; reflexivity|]. destruct i as [|i]; [discriminate|]. exact (IH i x H). }
    now apply G.
  - rewrite Nat.mod_small in Hg' by lia. clear - C Hg Hg'. revert i Hg Hg'. induction l as [|y l IH]; intros i Hg Hg'; [destruct i; discriminate|].
    destruct l as [|z l]; [destruct i; simpl in Hg'; [discriminate | destruct i; discriminate]|]. destruct C as [C1 C2]. destruct i as [|i]; simpl in Hg, Hg'; [congruence|]. eapply IH; eauto.
Qed.
