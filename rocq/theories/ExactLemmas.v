(** * Exact arithmetic: losses (proofs for C12-C14, C18-C20) *)
From Coq Require Import Reals List Lra Lia Bool ZArith.
From Verif Require Import Arith Vec Prim Cons Sketch Spec ArithR ExactSpec HeapLemmas.
Import ListNotations.
Local Open Scope R_scope.

Lemma f0_R : f0 = Fin 0. Proof. unfold f0; simpl. f_equal; lra. Qed.
Lemma f1_R : f1 = Fin 1. Proof. unfold f1; simpl. f_equal; lra. Qed.
Lemma fhalf_R : fhalf = Fin (/2). Proof. unfold fhalf; simpl. f_equal; lra. Qed.
Lemma fm1_R : fm1 = Fin (-1). Proof. unfold fm1. rewrite f1_R. simpl. f_equal; lra. Qed.
Lemma l6_R : lit_1em6 = Fin tiny. Proof. unfold lit_1em6, tiny; simpl. f_equal; lra. Qed.
Lemma add_R a b : Fin a +f Fin b = Fin (a + b). Proof. reflexivity. Qed.
Lemma sub_R a b : Fin a -f Fin b = Fin (a - b). Proof. reflexivity. Qed.
Lemma mul_R a b : Fin a *f Fin b = Fin (a * b). Proof. reflexivity. Qed.
Lemma neg_R a : fneg (Fin a) = Fin (- a). Proof. reflexivity. Qed.
Lemma abs_R a : fabs (Fin a) = Fin (Rabs a). Proof. reflexivity. Qed.
Lemma cos_R a : fcos (Fin a) = Fin (cos a). Proof. reflexivity. Qed.
Lemma sin_R a : fsin (Fin a) = Fin (sin a). Proof. reflexivity. Qed.
Lemma lt_R a b : flt (Fin a) (Fin b) = Rltb a b. Proof. reflexivity. Qed.
Lemma le_R a b : fle (Fin a) (Fin b) = Rleb a b. Proof. reflexivity. Qed.
Lemma fin_R a : ffin (Fin a) = true. Proof. reflexivity. Qed.
Lemma div_R a b : b <> 0 -> Fin a /f Fin b = Fin (a / b).
Proof. intros H; simpl. destruct (Req_EM_T b 0); [contradiction | auto]. Qed.
Lemma div0_R : Fin 0 /f Fin 0 = NaN.
Proof. simpl. destruct (Req_EM_T 0 0); [|lra]. unfold sgn_inf. destruct (Rlt_dec 0 0); auto; lra. Qed.
Lemma sqrt_R a : 0 <= a -> fsqrt (Fin a) = Fin (sqrt a).
Proof. intros H; simpl. destruct (Rlt_dec a 0); [lra | auto]. Qed.
Lemma acos_R a : -1 <= a <= 1 -> facos (Fin a) = Fin (acos a).
Proof. intros H; simpl. destruct (Rle_dec (-1) a); [|lra]. destruct (Rle_dec a 1); [auto|lra]. Qed.
Lemma clamp_R a : -1 <= a <= 1 -> fclamp fm1 f1 (Fin a) = Fin a.
Proof.
  intros H. unfold fclamp, fgt. rewrite fm1_R, f1_R. rewrite !lt_R. unfold Rltb.
  destruct (Rlt_dec a (-1)); [lra|]. rewrite lt_R; unfold Rltb. destruct (Rlt_dec 1 a); [lra|auto].
Qed.
Lemma max0_R a : fmax (Fin a) f0 = Fin (Rmax a 0).
Proof.
  unfold fmax. rewrite f0_R, lt_R. unfold Rltb. destruct (Rlt_dec a 0).
  - rewrite Rmax_right; auto; lra.
  - simpl. unfold Reqb. destruct (Req_EM_T a a); [|lra]. rewrite Rmax_left; auto; lra.
Qed.
Lemma ffin_inv a : ffin a = true -> a = Fin (vx a).
Proof. destruct a; simpl; auto; discriminate. Qed.
Lemma all_finite_inv (v : vec xR) : all_finite v = true -> v = map Fin (map vx v).
Proof.
  unfold all_finite. induction v as [|a v IH]; simpl; auto. intros H. apply andb_true_iff in H as [H1 H2].
  rewrite <- IH by auto. f_equal. now apply ffin_inv.
Qed.
Lemma all_finite_map (v : list R) : all_finite (map Fin v) = true.
Proof. induction v; simpl; auto. Qed.

#[export] Hint Rewrite f0_R f1_R fhalf_R fm1_R l6_R add_R sub_R mul_R neg_R abs_R cos_R sin_R lt_R le_R fin_R : xR.

Lemma sq_nonneg x : 0 <= sq x. Proof. unfold sq; nra. Qed.
Lemma sq_zero x : sq x = 0 <-> x = 0. Proof. unfold sq; split; [intros; nra | intros ->; lra]. Qed.
Lemma sum2_nonneg x y : 0 <= x * x + y * y. Proof. nra. Qed.
Lemma len_nonneg v : 0 <= len v. Proof. apply sqrt_pos. Qed.
Lemma len_sq v : len v * len v = fst v * fst v + snd v * snd v.
Proof. unfold len. apply sqrt_sqrt. apply sum2_nonneg. Qed.
Lemma len_zero v : len v = 0 <-> v = (0, 0).
Proof.
  split.
  - intros H. pose proof (len_sq v) as E. rewrite H in E. destruct v as [a b]; simpl in *. f_equal; nra.
  - intros ->. unfold len; simpl. rewrite Rmult_0_l, Rplus_0_l. apply sqrt_0.
Qed.
Lemma len_pos v : v <> (0, 0) -> 0 < len v.
Proof. intros H. pose proof (len_nonneg v). destruct (Req_dec (len v) 0); [apply len_zero in H1; contradiction | lra]. Qed.
Lemma lagrange u v : sq (dotR u v) + sq (crossR u v) = (len u * len u) * (len v * len v).
Proof. rewrite !len_sq. unfold sq, dotR, crossR. destruct u, v; simpl. ring. Qed.
Lemma cauchy u v : - (len u * len v) <= dotR u v <= len u * len v.
Proof.
  pose proof (lagrange u v) as L. pose proof (len_nonneg u). pose proof (len_nonneg v).
  pose proof (sq_nonneg (crossR u v)). assert (0 <= len u * len v) by nra.
  assert (sq (dotR u v) <= sq (len u * len v)) by (unfold sq in *; nra).
  unfold sq in *. split; apply Rnot_lt_le; intros ?; nra.
Qed.
Lemma cos_bound u v : 0 < len u -> 0 < len v -> -1 <= dotR u v / (len u * len v) <= 1.
Proof.
  intros H1 H2. pose proof (cauchy u v) as [A B]. assert (P : 0 < len u * len v) by nra.
  split.
  - apply (Rmult_le_reg_r (len u * len v)); auto. unfold Rdiv. rewrite Rmult_assoc, Rinv_l; lra.
  - apply (Rmult_le_reg_r (len u * len v)); auto. unfold Rdiv. rewrite Rmult_assoc, Rinv_l; lra.
Qed.
Lemma tiny_pos : 0 < tiny. Proof. unfold tiny; lra. Qed.

(** ** Vector operations of the code on finite vectors *)
Definition F2 (v : R * R) : xR * xR := (Fin (fst v), Fin (snd v)).
Lemma v2sub_R u v : v2sub (F2 u) (F2 v) = F2 (fst u - fst v, snd u - snd v). Proof. reflexivity. Qed.
Lemma v2dot_R u v : v2dot (F2 u) (F2 v) = Fin (dotR u v). Proof. reflexivity. Qed.
Lemma v2norm2_R u : v2norm2 (F2 u) = Fin (fst u * fst u + snd u * snd u). Proof. reflexivity. Qed.
Lemma v2norm_R u : v2norm (F2 u) = Fin (len u).
Proof. unfold v2norm. rewrite v2norm2_R, sqrt_R; auto. apply sum2_nonneg. Qed.
Lemma v2normalize_R u : len u <> 0 -> v2normalize (F2 u) = F2 (fst u / len u, snd u / len u).
Proof. intros H. unfold v2normalize. rewrite v2norm_R. unfold F2; simpl fst; simpl snd. rewrite !div_R; auto. Qed.
Lemma v2normalize_0 u : len u = 0 -> v2finite (v2normalize (F2 u)) = false.
Proof.
  intros H. unfold v2normalize. rewrite v2norm_R, H. apply len_zero in H. subst u. unfold F2; simpl fst; simpl snd.
  rewrite div0_R. reflexivity.
Qed.
Lemma v2finite_R u : v2finite (F2 u) = true. Proof. reflexivity. Qed.

(** ** Reading finite cells *)
Lemma pdata_R h l : all_finite (prim_data h (PPoint l)) = true ->
  pdata h l = F2 (cx (cfg_of h) l, cy (cfg_of h) l).
Proof.
  simpl. intros H. apply andb_true_iff in H as [H1 H2]. apply andb_true_iff in H2 as [H2 _].
  unfold pdata, p_data, F2. simpl. f_equal; now apply ffin_inv.
Qed.
Lemma arc_R h a : all_finite (prim_data h (PArc a)) = true ->
  a_radius (getA h a) = Fin (cr (cfg_of h) a) /\ a_sa (getA h a) = Fin (csa (cfg_of h) a) /\
  a_ea (getA h a) = Fin (cea (cfg_of h) a).
Proof.
  simpl. intros H. repeat (apply andb_true_iff in H as [? H]). repeat split; now apply ffin_inv.
Qed.

Definition line_fin (h : heap xR) l :=
  all_finite (prim_data h (PPoint (l_start (getL h l)))) = true /\
  all_finite (prim_data h (PPoint (l_end (getL h l)))) = true.
Lemma line_dir h l : line_fin h l -> v2sub (line_end h l) (line_start h l) = F2 (dirR (cfg_of h) h l).
Proof. intros [H1 H2]. unfold line_end, line_start. rewrite !pdata_R by auto. reflexivity. Qed.
Lemma line_ends h l : line_fin h l ->
  line_start h l = F2 (cx (cfg_of h) (l_start (getL h l)), cy (cfg_of h) (l_start (getL h l))) /\
  line_end h l = F2 (cx (cfg_of h) (l_end (getL h l)), cy (cfg_of h) (l_end (getL h l))).
Proof. intros [H1 H2]. unfold line_end, line_start. rewrite !pdata_R by auto. auto. Qed.

Lemma arc_end_R h a : all_finite (prim_data h (PArc a)) = true ->
  all_finite (prim_data h (PPoint (a_center (getA h a)))) = true ->
  arc_end_point h (getA h a) = F2 (end_pt (cfg_of h) h a).
Proof.
  intros H1 H2. apply arc_R in H1 as (E1 & E2 & E3). unfold arc_end_point.
  pose proof (pdata_R _ _ H2) as P. unfold pdata, p_data in P. injection P as Px Py.
  rewrite Px, Py, E1, E3. reflexivity.
Qed.
Lemma arc_start_R h a : all_finite (prim_data h (PArc a)) = true ->
  all_finite (prim_data h (PPoint (a_center (getA h a)))) = true ->
  arc_start_point h (getA h a) = F2 (start_pt (cfg_of h) h a).
Proof.
  intros H1 H2. apply arc_R in H1 as (E1 & E2 & E3). unfold arc_start_point.
  pose proof (pdata_R _ _ H2) as P. unfold pdata, p_data in P. injection P as Px Py.
  rewrite Px, Py, E1, E2. reflexivity.
Qed.

Ltac xr := autorewrite with xR.

(** the facts con_finite gives for each kind *)
Lemma con_finite_pt h c l : con_finite h c -> In (PPoint l) (deps h c) -> all_finite (prim_data h (PPoint l)) = true.
Proof. intros [_ H] Hi; auto. Qed.
Lemma con_finite_arc h c a : con_finite h c -> In (PArc a) (deps h c) -> all_finite (prim_data h (PArc a)) = true.
Proof. intros [_ H] Hi; auto. Qed.
Lemma con_finite_line h c l : con_finite h c -> In (PLine l) (con_refs c) -> line_fin h l.
Proof.
  intros [_ H] Hi. split; apply H; unfold deps; apply in_flat_map; exists (PLine l); simpl; auto.
Qed.

Lemma loss_R h c : con_finite h c -> loss_value h c = Fin (lossR (cfg_of h) h c).
Proof.
  intros Hf. pose proof Hf as [Hn _]. unfold lossR.
  destruct c; cbn [loss_value residual2 con_new_ok] in *.
  - (* angle *)
    assert (P1 := con_finite_pt _ _ p1 Hf ltac:(simpl; auto)).
    assert (P2 := con_finite_pt _ _ p2 Hf ltac:(simpl; auto)).
    assert (Pm := con_finite_pt _ _ pm Hf ltac:(simpl; auto)).
    apply ffin_inv in Hn. rewrite Hn.
    unfold current_angle. rewrite (pdata_R _ _ P1), (pdata_R _ _ P2), (pdata_R _ _ Pm).
    rewrite !v2sub_R, !v2norm_R, v2dot_R.
    cbn [fst snd]. fold (from_to (cfg_of h) pm p1). fold (from_to (cfg_of h) pm p2).
    set (u := from_to (cfg_of h) pm p1). set (v := from_to (cfg_of h) pm p2).
    rewrite !abs_R, l6_R, !lt_R. rewrite !Rabs_right by (apply Rle_ge, len_nonneg).
    unfold Rltb. destruct (Rlt_dec (len u) tiny); [|destruct (Rlt_dec (len v) tiny)]; cbn [orb].
    + xr. f_equal. simpl vx. unfold sq. field.
    + xr. f_equal. simpl vx. unfold sq. field.
    + pose proof tiny_pos. rewrite mul_R, div_R by nra. rewrite fin_R. cbn [negb].
      pose proof (cos_bound u v ltac:(lra) ltac:(lra)).
      rewrite clamp_R, acos_R by auto. xr. f_equal. simpl vx. unfold angleR. fold u v. unfold sq. field.
  - assert (P1 := con_finite_arc _ _ a Hf ltac:(simpl; auto)).
    assert (P2 := con_finite_pt _ _ (a_center (getA h a)) Hf ltac:(simpl; auto)).
    assert (P3 := con_finite_pt _ _ p Hf ltac:(simpl; auto)).
    rewrite (arc_end_R _ _ P1 P2), (pdata_R _ _ P3). unfold F2. cbn [fst snd]. xr. f_equal. unfold sq. field.
  - assert (P1 := con_finite_arc _ _ a Hf ltac:(simpl; auto)).
    assert (P2 := con_finite_pt _ _ (a_center (getA h a)) Hf ltac:(simpl; auto)).
    assert (P3 := con_finite_pt _ _ p Hf ltac:(simpl; auto)).
    rewrite (arc_start_R _ _ P1 P2), (pdata_R _ _ P3). unfold F2. cbn [fst snd]. xr. f_equal. unfold sq. field.
  - assert (P1 := con_finite_pt _ _ p1 Hf ltac:(simpl; auto)).
    assert (P2 := con_finite_pt _ _ p2 Hf ltac:(simpl; auto)).
    apply ffin_inv in Hn. rewrite Hn. unfold current_distance, half_sq.
    rewrite (pdata_R _ _ P1), (pdata_R _ _ P2), v2sub_R, v2norm_R. cbn [fst snd]. xr. f_equal. simpl vx. unfold from_to, sq. field.
  - assert (P1 := con_finite_pt _ _ p1 Hf ltac:(simpl; auto)).
    assert (P2 := con_finite_pt _ _ p2 Hf ltac:(simpl; auto)).
    apply ffin_inv in Hn. rewrite Hn. unfold current_hdistance, half_sq.
    rewrite (pdata_R _ _ P1), (pdata_R _ _ P2). unfold F2. cbn [fst snd]. xr. f_equal. simpl vx. unfold sq. field.
  - assert (P1 := con_finite_pt _ _ p1 Hf ltac:(simpl; auto)).
    assert (P2 := con_finite_pt _ _ p2 Hf ltac:(simpl; auto)).
    apply ffin_inv in Hn. rewrite Hn. unfold current_vdistance, half_sq.
    rewrite (pdata_R _ _ P1), (pdata_R _ _ P2). unfold F2. cbn [fst snd]. xr. f_equal. simpl vx. unfold sq. field.
  - assert (P1 := con_finite_pt _ _ p Hf ltac:(simpl; auto)).
    apply andb_true_iff in Hn as [N1 N2]. apply ffin_inv in N1, N2. rewrite N1, N2.
    rewrite (pdata_R _ _ P1). change (Fin (vx dx), Fin (vx dy)) with (F2 (vx dx, vx dy)).
    rewrite v2sub_R, v2norm2_R. cbn [fst snd]. xr. f_equal. simpl vx. unfold sq. field.
  - assert (L1 := con_finite_line _ _ l1 Hf ltac:(simpl; auto)).
    assert (L2 := con_finite_line _ _ l2 Hf ltac:(simpl; auto)).
    rewrite (line_dir _ _ L1), (line_dir _ _ L2), !v2norm_R. unfold half_sq. xr. f_equal. unfold sq. field.
  - assert (L1 := con_finite_line _ _ l Hf ltac:(simpl; auto)).
    destruct (line_ends _ _ L1) as [-> ->]. unfold half_sq, F2. cbn [fst snd]. xr. f_equal. unfold sq, dirR, from_to. simpl. field.
  - assert (L1 := con_finite_line _ _ l Hf ltac:(simpl; auto)).
    destruct (line_ends _ _ L1) as [-> ->]. unfold half_sq, F2. cbn [fst snd]. xr. f_equal. unfold sq, dirR, from_to. simpl. field.
  - assert (L1 := con_finite_line _ _ l1 Hf ltac:(simpl; auto)).
    assert (L2 := con_finite_line _ _ l2 Hf ltac:(simpl; auto)).
    rewrite (line_dir _ _ L1), (line_dir _ _ L2).
    set (u := dirR (cfg_of h) h l1). set (v := dirR (cfg_of h) h l2).
    destruct (Req_EM_T (len u) 0) as [E|E].
    { rewrite v2normalize_0 by auto. cbn [andb negb]. xr. f_equal. field. }
    destruct (Req_EM_T (len v) 0) as [E2|E2].
    { rewrite (v2normalize_0 v) by auto. rewrite andb_false_r. cbn [negb]. xr. f_equal. field. }
    rewrite !v2normalize_R by auto. rewrite !v2finite_R. cbn [andb negb]. unfold half_sq, F2. cbn [fst snd]. xr.
    f_equal. unfold sq, crossR. field. auto.
  - assert (L1 := con_finite_line _ _ l1 Hf ltac:(simpl; auto)).
    assert (L2 := con_finite_line _ _ l2 Hf ltac:(simpl; auto)).
    rewrite (line_dir _ _ L1), (line_dir _ _ L2).
    set (u := dirR (cfg_of h) h l1). set (v := dirR (cfg_of h) h l2).
    destruct (Req_EM_T (len u) 0) as [E|E].
    { rewrite v2normalize_0 by auto. cbn [andb negb]. xr. f_equal. field. }
    destruct (Req_EM_T (len v) 0) as [E2|E2].
    { rewrite (v2normalize_0 v) by auto. rewrite andb_false_r. cbn [negb]. xr. f_equal. field. }
    rewrite !v2normalize_R by auto. rewrite !v2finite_R. cbn [andb negb]. unfold half_sq. rewrite v2dot_R. xr.
    f_equal. unfold sq, dotR. cbn [fst snd]. field. auto.
Qed.

Lemma residual2_nonneg g h c : 0 <= residual2 g h c.
Proof.
  destruct c; cbn [residual2]; repeat match goal with |- context [if ?b then _ else _] => destruct b end;
  try apply sq_nonneg; try apply Rplus_le_le_0_compat; try apply sq_nonneg; lra.
Qed.
Lemma lossR_nonneg g h c : 0 <= lossR g h c.
Proof. unfold lossR. pose proof (residual2_nonneg g h c). lra. Qed.

Lemma lossR_zero g h c : lossR g h c = 0 <-> satisfied g h c.
Proof.
  unfold lossR. assert (X : residual2 g h c / 2 = 0 <-> residual2 g h c = 0) by (split; lra). rewrite X. clear X.
  assert (Q : forall a b, sq (a - b) = 0 <-> a = b) by (intros; rewrite sq_zero; split; lra).
  assert (S2 : forall a b, sq a + sq b = 0 <-> a = 0 /\ b = 0).
  { intros a b. rewrite <- (sq_zero a), <- (sq_zero b). pose proof (sq_nonneg a); pose proof (sq_nonneg b).
    split; [intros; split; lra | intros [-> ->]; lra]. }
  destruct c; cbn [residual2 satisfied].
  - destruct (Rlt_dec _ _); [apply sq_zero|]. destruct (Rlt_dec _ _); [apply sq_zero|]. apply Q.
  - rewrite S2. destruct (end_pt g h a) as [x y]; simpl. split; [intros; f_equal; lra | intros E; injection E; lra].
  - rewrite S2. destruct (start_pt g h a) as [x y]; simpl. split; [intros; f_equal; lra | intros E; injection E; lra].
  - apply Q.
  - apply Q.
  - apply Q.
  - rewrite S2. split; lra.
  - apply Q.
  - rewrite sq_zero. unfold dirR, from_to; simpl. split; lra.
  - rewrite sq_zero. unfold dirR, from_to; simpl. split; lra.
  - set (u := dirR g h l1). set (v := dirR g h l2).
    destruct (Req_EM_T (len u) 0) as [E|E].
    { apply len_zero in E. rewrite E. unfold crossR; simpl. split; intros; lra. }
    destruct (Req_EM_T (len v) 0) as [E2|E2].
    { apply len_zero in E2. rewrite E2. unfold crossR; simpl. split; intros; lra. }
    rewrite sq_zero. split; [|intros ->; unfold Rdiv; lra].
    intros H. apply (Rmult_eq_compat_r (len u * len v)) in H. unfold Rdiv in H.
    rewrite Rmult_assoc, Rinv_l in H by nra. lra.
  - set (u := dirR g h l1). set (v := dirR g h l2).
    destruct (Req_EM_T (len u) 0) as [E|E].
    { apply len_zero in E. rewrite E. unfold dotR; simpl. split; intros; lra. }
    destruct (Req_EM_T (len v) 0) as [E2|E2].
    { apply len_zero in E2. rewrite E2. unfold dotR; simpl. split; intros; lra. }
    rewrite sq_zero. split; [|intros ->; unfold Rdiv; lra].
    intros H. apply (Rmult_eq_compat_r (len u * len v)) in H. unfold Rdiv in H.
    rewrite Rmult_assoc, Rinv_l in H by nra. lra.
Qed.
