(** * Vectors and matrices of exact numbers: the model's operations are the real ones *)
From Coq Require Import List ZArith Arith Bool Lia Reals Lra.
From Verif Require Import Arith Vec Solve ArithR ExactSpec ExactLemmas GradLemmas LossLemmas.
Import ListNotations.
Local Open Scope R_scope.

Definition FinV (v : list R) : vec xR := map Fin v.
Definition FinM (m : list (list R)) : mat xR := map FinV m.

Definition addL (u v : list R) : list R := map2 Rplus u v.
Definition subL (u v : list R) : list R := map2 Rminus u v.
Definition negL (u : list R) : list R := map Ropp u.
Definition sclL (a : R) (u : list R) : list R := map (Rmult a) u.
Definition mulL (m : list (list R)) (v : list R) : list R := map (fun r => dotL r v) m.
Definition gerL (a : R) (u w : list R) (m : list (list R)) : list (list R) :=
  map2 (fun ui r => map2 (fun wj hij => a * wj * ui + hij) w r) u m.
Definition idL (n : nat) : list (list R) := map (fun i => map (fun j => if Nat.eqb i j then 1 else 0) (seq 0 n)) (seq 0 n).

(** ** lengths *)
Lemma map2_min {A B C} (f : A -> B -> C) u : forall v, length (map2 f u v) = Nat.min (length u) (length v).
Proof. induction u as [|a u IH]; intros [|b v]; simpl; auto. Qed.
Ltac lens := unfold addL, subL, sclL, negL, mulL; rewrite ?map2_min, ?map_length; lia.
Lemma addL_length u v : length u = length v -> length (addL u v) = length u.
Proof. apply map2_length. Qed.
Lemma subL_length u v : length u = length v -> length (subL u v) = length u.
Proof. apply map2_length. Qed.
Lemma negL_length u : length (negL u) = length u. Proof. apply map_length. Qed.
Lemma sclL_length a u : length (sclL a u) = length u. Proof. apply map_length. Qed.
Lemma mulL_length m v : length (mulL m v) = length m. Proof. apply map_length. Qed.
Lemma FinV_length v : length (FinV v) = length v. Proof. apply map_length. Qed.
Lemma FinV_inj u v : FinV u = FinV v -> u = v.
Proof. intros H. apply (f_equal (map vx)) in H. unfold FinV in H. now rewrite !map_vx_Fin in H. Qed.
Lemma finite_FinV v : all_finite (FinV v) = true.
Proof. induction v; simpl; auto. Qed.
Lemma FinV_vx v : all_finite v = true -> v = FinV (map vx v).
Proof. apply all_finite_inv. Qed.

(** ** the operations of the model on finite numbers *)
Lemma vadd_R u : forall v, vadd (FinV u) (FinV v) = FinV (addL u v).
Proof. induction u as [|a u IH]; intros [|b v]; auto. unfold vadd in *. simpl. f_equal. apply IH. Qed.
Lemma vsub_R u : forall v, vsub (FinV u) (FinV v) = FinV (subL u v).
Proof. induction u as [|a u IH]; intros [|b v]; auto. unfold vsub in *. simpl. f_equal. apply IH. Qed.
Lemma vneg_R u : vneg (FinV u) = FinV (negL u).
Proof. unfold vneg, FinV, negL. now rewrite !map_map. Qed.
Lemma vscale_R a u : vscale (Fin a) (FinV u) = FinV (sclL a u).
Proof. unfold vscale, FinV, sclL. now rewrite !map_map. Qed.
Lemma vaxpy_R a u : forall v, vaxpy (Fin a) (FinV u) (flit 1 0) (FinV v) = FinV (addL v (sclL a u)).
Proof.
  induction u as [|x u IH]; intros [|y v]; auto. unfold vaxpy in *. simpl. f_equal; [f_equal; lra | apply IH].
Qed.
Lemma fold_addR l : forall a, fold_left fadd (FinV l) (Fin a) = Fin (a + sumR l).
Proof. induction l as [|x l IH]; intros a; simpl; [f_equal; lra|]. rewrite IH. f_equal. lra. Qed.
Lemma map2_mul_R u : forall v, map2 fmul (FinV u) (FinV v) = FinV (map2 Rmult u v).
Proof. induction u as [|a u IH]; intros [|b v]; simpl; auto. f_equal. apply IH. Qed.
Lemma sum_lanes_R k : forall a0 a1 a2 a3 a4 a5 a6 a7 p, (length p <= k)%nat ->
  sum_lanes (Fin a0) (Fin a1) (Fin a2) (Fin a3) (Fin a4) (Fin a5) (Fin a6) (Fin a7) (FinV p) = Fin (a0 + a1 + a2 + a3 + a4 + a5 + a6 + a7 + sumR p).
Proof.
  induction k as [|k IH]; intros a0 a1 a2 a3 a4 a5 a6 a7 p L.
  - destruct p; [|simpl in L; lia]. cbn [FinV map sum_lanes fold_left]. rewrite f0_R. cbn [fadd ArithR xadd]. f_equal. unfold sumR. cbn [fold_right]. ring.
  - destruct p as [|p0 [|p1 [|p2 [|p3 [|p4 [|p5 [|p6 [|p7 p]]]]]]]].
    1-8: cbn [FinV map sum_lanes fold_left]; rewrite f0_R; cbn [fadd ArithR xadd]; f_equal; unfold sumR; cbn [fold_right]; ring.
    change (FinV (p0 :: p1 :: p2 :: p3 :: p4 :: p5 :: p6 :: p7 :: p)) with (Fin p0 :: Fin p1 :: Fin p2 :: Fin p3 :: Fin p4 :: Fin p5 :: Fin p6 :: Fin p7 :: FinV p).
    cbn [sum_lanes]. cbn [fadd ArithR xadd]. rewrite IH by (simpl in L; lia). f_equal. unfold sumR. cbn [fold_right]. ring.
Qed.
Lemma vdot_R u v : vdot (FinV u) (FinV v) = Fin (dotL u v).
Proof. unfold vdot. rewrite map2_mul_R, f0_R, (sum_lanes_R _ _ _ _ _ _ _ _ _ _ (le_n _)). f_equal. unfold dotL. lra. Qed.
Lemma vsum_R u : vsum (FinV u) = Fin (sumR u).
Proof. unfold vsum. rewrite f0_R, fold_addR. f_equal. lra. Qed.
Lemma dot1_R u v : dot1 (FinV u) (FinV v) = Fin (dotL u v).
Proof.
  unfold dot1. rewrite map2_mul_R. unfold dotL. destruct (map2 Rmult u v) as [|x l]; simpl; [exact f0_R|].
  now rewrite fold_addR.
Qed.
Lemma mvec_R m v : mvec (FinM m) (FinV v) = FinV (mulL m v).
Proof. unfold mvec, FinM, FinV, mulL. rewrite !map_map. apply map_ext. intros r. apply dot1_R. Qed.
Lemma mneg_R m : mneg (FinM m) = FinM (map negL m).
Proof. unfold mneg, FinM. rewrite !map_map. apply map_ext. intros r. apply vneg_R. Qed.
Lemma mger_row_R a x w : forall r, map2 (fun yj hij : xR => (Fin a *f yj) *f Fin x +f flit 1 0 *f hij) (FinV w) (FinV r) =
  FinV (map2 (fun wj hij => a * wj * x + hij) w r).
Proof.
  induction w as [|y w IH]; intros [|z r]; auto.
  change (FinV (y :: w)) with (Fin y :: FinV w). change (FinV (z :: r)) with (Fin z :: FinV r). cbn [map2].
  rewrite IH. unfold FinV at 2. cbn [map]. f_equal. simpl. f_equal. lra.
Qed.
Lemma mger_R a w u : forall m, mger (Fin a) (FinV u) (FinV w) (flit 1 0) (FinM m) = FinM (gerL a u w m).
Proof.
  induction u as [|x u IH]; intros [|r m]; auto. unfold mger in *.
  change (FinV (x :: u)) with (Fin x :: FinV u). change (FinM (r :: m)) with (FinV r :: FinM m). cbn [map2].
  rewrite IH, mger_row_R. reflexivity.
Qed.
Lemma mident_R n : mident n = FinM (idL n).
Proof.
  unfold mident, FinM, idL. rewrite map_map. apply map_ext. intros i. unfold FinV. rewrite map_map.
  apply map_ext. intros j. destruct (Nat.eqb i j); [exact f1_R | exact f0_R].
Qed.
Lemma vnorm_R u : vnorm (FinV u) = Fin (sqrt (dotL u u)).
Proof.
  unfold vnorm. rewrite vdot_R, sqrt_R; auto.
  unfold dotL. induction u as [|x u IH]; simpl; [lra|]. fold (sumR (map2 Rmult u u)). nra.
Qed.

(** ** bilinearity *)
Lemma dot_add_l u : forall v w, length u = length v -> dotL (addL u v) w = dotL u w + dotL v w.
Proof.
  unfold dotL, addL. induction u as [|a u IH]; intros [|b v] w L; simpl in *; try discriminate; [lra|].
  destruct w as [|c w]; simpl; [lra|]. rewrite IH by lia. lra.
Qed.
Lemma dot_comm u : forall v, dotL u v = dotL v u.
Proof. unfold dotL. induction u as [|a u IH]; intros [|b v]; simpl; auto. rewrite IH. lra. Qed.
Lemma dot_add_r u v w : length v = length w -> dotL u (addL v w) = dotL u v + dotL u w.
Proof. intros. rewrite dot_comm, dot_add_l by auto. now rewrite (dot_comm v), (dot_comm w). Qed.
Lemma dot_scl_l a u : forall v, dotL (sclL a u) v = a * dotL u v.
Proof. unfold dotL, sclL. induction u as [|x u IH]; intros [|y v]; simpl; try lra. rewrite IH. lra. Qed.
Lemma dot_scl_r a u v : dotL u (sclL a v) = a * dotL u v.
Proof. now rewrite dot_comm, dot_scl_l, dot_comm. Qed.
Lemma dot_neg_l u : forall v, dotL (negL u) v = - dotL u v.
Proof. unfold dotL, negL. induction u as [|x u IH]; intros [|y v]; simpl; try lra. rewrite IH. lra. Qed.
Lemma dot_neg_r u v : dotL u (negL v) = - dotL u v.
Proof. now rewrite dot_comm, dot_neg_l, dot_comm. Qed.
Lemma dot_sub_l u : forall v w, length u = length v -> dotL (subL u v) w = dotL u w - dotL v w.
Proof.
  unfold dotL, subL. induction u as [|a u IH]; intros [|b v] w L; simpl in *; try discriminate; [lra|].
  destruct w as [|c w]; simpl; [lra|]. rewrite IH by lia. lra.
Qed.
Lemma dot_sub_r u v w : length v = length w -> dotL u (subL v w) = dotL u v - dotL u w.
Proof. intros. rewrite dot_comm, dot_sub_l by auto. now rewrite (dot_comm v), (dot_comm w). Qed.
Lemma dot_self_nonneg u : 0 <= dotL u u.
Proof. unfold dotL. induction u as [|x u IH]; simpl; [lra|]. fold (sumR (map2 Rmult u u)). nra. Qed.
Lemma dot_self_zero u : dotL u u = 0 -> forall x, In x u -> x = 0.
Proof.
  induction u as [|x u IH]; simpl; [tauto|]. unfold dotL; simpl. fold (dotL u u). intros H y.
  pose proof (dot_self_nonneg u). assert (x * x = 0) by nra. assert (dotL u u = 0) by nra.
  intros [<-|Hy]; [nra | auto].
Qed.
Lemma dot_self_pos u : (exists x, In x u /\ x <> 0) -> 0 < dotL u u.
Proof.
  intros (x & Hx & Nx). destruct (Rle_lt_or_eq_dec _ _ (dot_self_nonneg u)) as [H|H]; auto.
  exfalso. apply Nx. now apply (dot_self_zero u).
Qed.

(** ** square matrices *)
Definition square (n : nat) (m : list (list R)) : Prop := length m = n /\ List.Forall (fun r => length r = n) m.
Definition bil (m : list (list R)) (x v : list R) : R := dotL x (mulL m v).
(** symmetric positive definite, as a form on vectors of length n *)
Definition spd (n : nat) (m : list (list R)) : Prop :=
  (forall x v, length x = n -> length v = n -> bil m x v = bil m v x) /\
  (forall x, length x = n -> (exists a, In a x /\ a <> 0) -> 0 < bil m x x).

Lemma ger_square n a u w m : length u = n -> length w = n -> square n m -> square n (gerL a u w m).
Proof.
  intros Lu Lw [Lm Hr]. split; [unfold gerL; rewrite map2_length; congruence|].
  unfold gerL. clear Lm. revert u Lu. assert (G : forall u, List.Forall (fun r => length r = n) (map2 (fun ui r => map2 (fun wj hij => a * wj * ui + hij) w r) u m)).
  { induction m as [|r m IH]; intros [|x u]; simpl; auto. inversion Hr; subst. constructor; auto.
    rewrite map2_length; congruence. }
  auto.
Qed.
Lemma ger_row a x v w : forall r, length w = length r -> length w = length v ->
  dotL (map2 (fun wj hij => a * wj * x + hij) w r) v = a * dotL w v * x + dotL r v.
Proof.
  unfold dotL. revert v. induction w as [|y w IH]; intros [|c v] [|z r] L1 L2; simpl in *; try discriminate; [lra|].
  rewrite IH by lia. lra.
Qed.
Lemma ger_mul n a u w v m : length w = n -> length v = n -> square n m -> length u = n ->
  mulL (gerL a u w m) v = addL (sclL (a * dotL w v) u) (mulL m v).
Proof.
  intros Lw Lv [Lm Hr] Lu. unfold gerL, mulL, addL, sclL. rewrite <- Lm in Lu. clear Lm. revert m Hr Lu.
  induction u as [|x u IH]; intros [|r m] Hr Lu; simpl in *; try discriminate; auto.
  inversion Hr; subst. f_equal; [|apply IH; auto; lia]. rewrite ger_row by congruence. lra.
Qed.
Lemma mul_add n m u v : square n m -> length u = n -> length v = n -> mulL m (addL u v) = addL (mulL m u) (mulL m v).
Proof.
  intros [Lm Hr] Lu Lv. unfold mulL. clear Lm. induction m as [|r m IH]; simpl; auto. inversion Hr; subst.
  unfold addL in *. cbn [map2]. rewrite <- IH by auto. f_equal. fold (addL u v). rewrite dot_add_r; auto; congruence.
Qed.
Lemma mul_scl m a u : mulL m (sclL a u) = sclL a (mulL m u).
Proof. unfold mulL, sclL at 2. rewrite map_map. apply map_ext. intros r. apply dot_scl_r. Qed.
Lemma mul_negm m v : mulL (map negL m) v = negL (mulL m v).
Proof. unfold mulL, negL at 2. rewrite !map_map. apply map_ext. intros r. apply dot_neg_l. Qed.

Lemma id_square n : square n (idL n).
Proof.
  split; [unfold idL; now rewrite map_length, seq_length|].
  apply Forall_forall. intros r Hr. unfold idL in Hr. apply in_map_iff in Hr as (i & <- & _). now rewrite map_length, seq_length.
Qed.
Lemma nth_ext0 u v : length u = length v -> (forall i, (i < length u)%nat -> nth i u 0 = nth i v 0) -> u = v.
Proof. intros L H. eapply nth_ext; eauto. Qed.
Lemma id_mul n v : length v = n -> mulL (idL n) v = v.
Proof.
  intros L. apply nth_ext0; [rewrite mulL_length; unfold idL; now rewrite map_length, seq_length|].
  intros i Hi. rewrite mulL_length in Hi. unfold idL in Hi. rewrite map_length, seq_length in Hi.
  unfold mulL, idL. rewrite map_map.
  rewrite (nth_indep _ 0 (dotL (map (fun j => if Nat.eqb i j then 1 else 0) (seq 0 n)) v)) by (rewrite map_length, seq_length; auto).
  rewrite (map_nth (fun i => dotL (map (fun j => if Nat.eqb i j then 1 else 0) (seq 0 n)) v) (seq 0 n) i i).
  rewrite seq_nth by auto. simpl. rewrite dot_comm.
  transitivity (dotL v (unitv n i)); [|apply dot_unit; auto].
  f_equal. unfold unitv. apply map_ext. intros j. rewrite Nat.eqb_sym. reflexivity.
Qed.
Lemma id_spd n : spd n (idL n).
Proof.
  split.
  - intros x v Lx Lv. unfold bil. rewrite !id_mul by auto. apply dot_comm.
  - intros x Lx Hx. unfold bil. rewrite id_mul by auto. now apply dot_self_pos.
Qed.

(** ** the BFGS update *)
Definition updL (m : list (list R)) (s y : list R) (c : R) : list (list R) :=
  let hy := mulL m y in
  gerL (-1 / c) s hy (gerL (-1 / c) hy s (gerL ((c + dotL y hy) / (c * c)) s s m)).
Lemma bfgs_update_R m s y c : c <> 0 -> bfgs_update (FinM m) (FinV s) (FinV y) (Fin c) = FinM (updL m s y c).
Proof.
  intros Hc. unfold bfgs_update. rewrite mvec_R, vdot_R, add_R, mul_R.
  replace (fneg f1 /f Fin c) with (Fin (-1 / c)).
  2:{ rewrite f1_R, neg_R, div_R by auto. f_equal. }
  rewrite div_R by now apply Rmult_integral_contrapositive_currified.
  unfold f1. rewrite !mger_R. reflexivity.
Qed.
Section Upd.
Variables (n : nat) (m : list (list R)) (s y : list R) (c : R).
Hypothesis Sq : square n m.
Hypothesis Ls : length s = n.
Hypothesis Ly : length y = n.
Hypothesis Hc : c <> 0.
Let hy := mulL m y.
Lemma hy_length : length hy = n.
Proof. unfold hy. rewrite mulL_length. apply Sq. Qed.
Lemma upd_square : square n (updL m s y c).
Proof. unfold updL. repeat apply ger_square; auto; apply hy_length. Qed.
Lemma upd_mul v : length v = n -> mulL (updL m s y c) v =
  addL (sclL (-1 / c * dotL hy v) s) (addL (sclL (-1 / c * dotL s v) hy) (addL (sclL ((c + dotL y hy) / (c * c) * dotL s v) s) (mulL m v))).
Proof.
  intros Lv. unfold updL. fold hy.
  assert (S1 := ger_square n ((c + dotL y hy) / (c * c)) s s m Ls Ls Sq).
  assert (S2 := ger_square n (-1 / c) hy s _ hy_length Ls S1).
  rewrite (ger_mul n) by (auto; apply hy_length). rewrite (ger_mul n) by (auto; apply hy_length).
  rewrite (ger_mul n) by auto. reflexivity.
Qed.
Lemma upd_bil x v : length x = n -> length v = n -> bil (updL m s y c) x v =
  bil m x v - / c * (dotL s v * dotL x hy + dotL hy v * dotL x s) + (c + dotL y hy) / (c * c) * (dotL s v * dotL x s).
Proof.
  intros Lx Lv. unfold bil. rewrite upd_mul by auto. destruct Sq as [Lm _].
  assert (Lh := hy_length).
  rewrite dot_add_r by lens. rewrite dot_add_r by lens. rewrite dot_add_r by lens.
  rewrite !dot_scl_r. unfold Rdiv. ring.
Qed.
Lemma upd_spd : 0 < c -> spd n m -> spd n (updL m s y c).
Proof.
  intros Pc [Sy Pd]. assert (Lh := hy_length).
  assert (B1 : forall x, length x = n -> dotL x hy = bil m x y) by reflexivity.
  assert (B2 : forall x, length x = n -> dotL hy x = bil m x y) by (intros; rewrite dot_comm; reflexivity).
  split.
  - intros x v Lx Lv. rewrite !upd_bil by auto. rewrite (Sy x v) by auto. rewrite !B1, !B2 by auto.
    rewrite (dot_comm x s), (dot_comm v s). ring.
  - intros x Lx Nx. rewrite upd_bil by auto. rewrite !B1, B2 by auto. rewrite (dot_comm x s).
    set (k := dotL s x).
    set (z := addL x (sclL (- (k / c)) y)).
    assert (Lz : length z = n) by (unfold z; lens).
    assert (Ez : bil m z z = bil m x x - 2 * (k / c) * bil m x y + (k / c) * (k / c) * bil m y y).
    { unfold bil, z. rewrite (mul_add n) by (auto; rewrite sclL_length; auto). rewrite mul_scl. destruct Sq as [Lm _].
      rewrite dot_add_l by lens.
      rewrite !dot_add_r by lens.
      rewrite !dot_scl_l, !dot_scl_r. fold (bil m y x). rewrite (Sy y x) by auto. unfold bil. ring. }
    assert (Nz : 0 <= bil m z z).
    { destruct (in_dec Req_EM_T 0 (map (fun a => if Req_EM_T a 0 then 1 else 0) z)) as [Hi|Hi].
      - apply in_map_iff in Hi as (a & Ha & Hi). destruct (Req_EM_T a 0); [lra|]. left. apply Pd; auto. exists a; auto.
      - right. unfold bil. rewrite dot_comm, dot_zeros; auto. intros a Ha. destruct (Req_EM_T a 0); auto.
        exfalso. apply Hi. apply in_map_iff. exists a. destruct (Req_EM_T a 0); [contradiction|auto]. }
    match goal with |- 0 < ?e => replace e with (bil m z z + / c * (k * k)) by (rewrite Ez; field; auto) end.
    assert (Ic : 0 < / c) by now apply Rinv_0_lt_compat.
    destruct (Req_EM_T k 0) as [K|K].
    + assert (Z0 : bil m z z = bil m x x). { rewrite Ez, K. field. auto. }
      rewrite Z0, K. assert (0 < bil m x x) by (apply Pd; auto). nra.
    + assert (0 < k * k) by nra. nra.
Qed.
Lemma upd_secant : c = dotL s y -> mulL (updL m s y c) y = s.
Proof.
  intros E. rewrite upd_mul by auto. rewrite <- E. fold hy. rewrite (dot_comm hy y). assert (Lh := hy_length).
  apply nth_ext0.
  { unfold addL, sclL. rewrite !map2_min, !map_length. fold hy. lia. }
  intros i Hi. revert Hi. unfold addL, sclL.
  assert (G : forall a b d (u w : list R) i, length u = n -> length w = n -> (i < n)%nat ->
    nth i (map2 Rplus (map (Rmult a) u) (map2 Rplus (map (Rmult b) w) (map2 Rplus (map (Rmult d) u) w))) 0 =
    a * nth i u 0 + (b * nth i w 0 + (d * nth i u 0 + nth i w 0))).
  { clear. intros a b d. induction n as [|n0 IH]; intros [|x u] [|z w] i Lu Lw Hi; simpl in *; try discriminate; try lia.
    destruct i as [|i]; auto. apply IH; lia. }
  intros Hi. rewrite !map2_min, !map_length in Hi. fold hy in Hi. rewrite G by (auto; lia). field. auto.
Qed.
End Upd.

(** entries *)
Lemma mul_nth m v i : (i < length m)%nat -> nth i (mulL m v) 0 = dotL (nth i m []) v.
Proof.
  intros Hi. unfold mulL. rewrite (nth_indep _ 0 (dotL [] v)) by (rewrite map_length; auto).
  apply (map_nth (fun r => dotL r v)).
Qed.
Lemma spd_symmetric n m : square n m -> spd n m -> forall i j, (i < n)%nat -> (j < n)%nat ->
  nth j (nth i m []) 0 = nth i (nth j m []) 0.
Proof.
  intros [Lm Hr] [Sy _]. assert (G : forall i j, (i < n)%nat -> (j < n)%nat -> nth j (nth i m []) 0 = bil m (unitv n i) (unitv n j)).
  { intros i j Hi Hj. unfold bil. rewrite dot_comm.
    rewrite dot_unit by (rewrite mulL_length; auto).
    rewrite mul_nth by congruence. rewrite dot_unit; auto.
    rewrite List.Forall_forall in Hr. apply Hr, nth_In. congruence. }
  intros i j Hi Hj. rewrite !G by auto. apply Sy; apply unitv_length.
Qed.
