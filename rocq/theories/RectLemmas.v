(** * The two rectangle examples *)
From Coq Require Import List ZArith NArith Arith Bool Lia Reals Lra.
From Verif Require Import Arith Vec Prim Cons Sketch Solve Api Spec SolverSpec ArithR ExactSpec LinearSpec Bench BenchSpec
  HeapLemmas SolveLemmas WfLemmas DataLemmas BookLemmas SpecLemmas ExactLemmas GradLemmas LossLemmas RMat SearchLemmas StepLemmas
  ExactRun SolverForms SymLemmas LinearLemmas LinearForms BuildLemmas BenchLemmas CircleLemmas.
Import ListNotations.

Section Run.
Context {F : Type} {A : Arith F}.
Variable pinv : mat F -> F -> pinv_res (mat F).
Ltac ok := cbn; repeat constructor; cbn; auto with arith.
Lemma aligned_run : ffin (f0 : F) = true -> ffin (f2 : F) = true -> ffin (flit 3 0 : F) = true ->
  run pinv init aligned_ops aligned_rets (aligned_heap, aligned_sketch).
Proof.
  intros H0 H2 H3. unfold aligned_ops, aligned_rets. cbn [seq map app flat_map].
  repeat (eapply run_cons; [ok | cbn; rewrite ?H0, ?H2, ?H3; reflexivity|]). apply run_nil.
Qed.
Lemma rotated_run : ffin (f0 : F) = true -> ffin (f1 : F) = true -> ffin (f2 : F) = true -> ffin (flit 3 0 : F) = true ->
  ffin (to_radians (flit 45 0) : F) = true ->
  run pinv init rotated_ops rotated_rets (rotated_heap, rotated_sketch).
Proof.
  intros H0 H1 H2 H3 H4. unfold rotated_ops, rotated_rets. cbn [seq map app].
  repeat (eapply run_cons; [ok | unfold step, constrain; cbn; rewrite ?H0, ?H1, ?H2, ?H3, ?H4; reflexivity|]). apply run_nil.
Qed.
Lemma solve_last ops rets (h : heap F) s sol : run pinv init ops rets (h, s) -> snd (solve pinv sol s h) = Val (SOk tt) ->
  run pinv init (ops ++ [Api.Solve sol]) (rets ++ [RetSolve (SOk tt)]) (fst (solve pinv sol s h), s).
Proof.
  intros R E. eapply run_app; [exact R|]. eapply run_cons; [exact I | | apply run_nil]. cbn [step]. unfold on_heap. cbn [fst snd].
  destruct (solve pinv sol s h) as [h' o]. cbn [snd] in E. subst o. reflexivity.
Qed.
Lemma stairs_counts n : (1 <= n)%nat -> get_num_primitives (stairs_sketch n) = (2 * n - 1)%nat /\ get_num_constraints (stairs_sketch n) = (2 * n - 1)%nat.
Proof.
  intros H. unfold get_num_primitives, get_num_constraints, stairs_sketch, points_then_lines. cbn [s_prims s_cons].
  rewrite app_length, !map_length, !seq_length. lia.
Qed.
Lemma bfgs_at_once (h : heap F) s P : flt (get_loss h s) (bf_min_loss P) = true -> (0 < bf_max P)%N -> bfgs_run s P h = (h, Val (SOk 0%N)).
Proof.
  intros H G. unfold bfgs_run. replace (2 * N.to_nat (bf_max P) + 2)%nat with (S (2 * N.to_nat (bf_max P) + 1)) by lia. cbn [bfgs_loop].
  apply N.ltb_lt in G. rewrite G. cbn [negb]. now rewrite H.
Qed.
End Run.

Local Open Scope R_scope.
Ltac points k H := repeat (destruct k as [|k]; [|try (exfalso; lia)]).

(** ** distances between a point and a target *)
Lemma away_R (h : heap xR) p x y a b : p_x (getP h p) = Fin a -> p_y (getP h p) = Fin b -> away h p (Fin x) (Fin y) = Fin (len (a - x, b - y)).
Proof.
  intros E1 E2. unfold away, pdata, p_data. rewrite E1, E2. exact (v2norm_R (a - x, b - y)).
Qed.
Lemma len_le_sq a b e : 0 <= e -> len (a, b) < e <-> a * a + b * b < e * e.
Proof.
  intros He. pose proof (len_nonneg (a, b)) as P. pose proof (len_sq (a, b)) as Q. cbn [fst snd] in Q. split; intros H; [nra|].
  apply Rnot_le_lt. intros G. nra.
Qed.
Lemma f2_R : (f2 : xR) = Fin 2. Proof. unfold f2; simpl. f_equal; lra. Qed.
Lemma f3_R : (flit 3 0 : xR) = Fin 3. Proof. simpl. f_equal; lra. Qed.
Lemma eps8_R : (flit 1 8 : xR) = Fin (/ 100000000). Proof. simpl. f_equal; lra. Qed.

Lemma fin2 a b c d : (Fin a, Fin b) = (Fin c, Fin d) -> a = c /\ b = d.
Proof. intros E. injection E. auto. Qed.
(** ** the axis-aligned rectangle *)
Section Aligned.
Variable h : heap xR.
Hypothesis S : same_structure aligned_heap h.
Hypothesis FD : finite_data h aligned_sketch.
Local Notation s := aligned_sketch.
Local Notation X := (cx (cfg_of h)).
Local Notation Y := (cy (cfg_of h)).
Lemma aligned_valid0 : valid (aligned_heap : heap xR) s.
Proof. assert (R : run nopinvR init aligned_ops aligned_rets (aligned_heap, s)) by (apply aligned_run; reflexivity).
  apply (reachable_valid _ _ _ _ R). unfold few. cbn. lia. Qed.
Lemma aligned_valid : valid h s.
Proof. eapply valid_struct; [apply aligned_valid0 | exact S]. Qed.
Lemma aligned_pt i : (i < 4)%nat -> p_x (getP h i) = Fin (X i) /\ p_y (getP h i) = Fin (Y i).
Proof.
  intros Hi. assert (R : registered s (PPoint i)).
  { apply (valid_reg _ _ _ aligned_valid). do 4 (destruct i as [|i]; [cbn; tauto|]). exfalso; lia. }
  pose proof (FD _ R) as F. cbn [prim_data] in F. inversion_clear F as [|? ? F1 F2]. inversion_clear F2 as [|? ? F3 _].
  cbn [cx cy cfg_of]. destruct (p_x (getP h i)), (p_y (getP h i)); try discriminate; auto.
Qed.
Lemma aligned_con k : getK h k = nth k (h_cons (aligned_heap : heap xR)) con0.
Proof. destruct S as (_ & E & _). unfold getK. now rewrite E. Qed.
Lemma aligned_line k : getL h k = nth k (h_lines (aligned_heap : heap xR)) line0.
Proof. destruct S as (E & _). unfold getL. now rewrite E. Qed.
Lemma aligned_finite : all_con_finite h s.
Proof.
  assert (P : forall i, (i < 4)%nat -> all_finite (prim_data h (PPoint i)) = true).
  { intros i Hi. destruct (aligned_pt i Hi) as [E1 E2]. cbn [prim_data]. rewrite E1, E2. reflexivity. }
  intros k Hk. rewrite aligned_con. cbn in Hk.
  repeat (destruct Hk as [<-|Hk]; [split; [reflexivity|]; intros d; unfold deps; cbn [aligned_heap h_cons nth con_refs flat_map prim_refs app];
    rewrite ?aligned_line; cbn [aligned_heap h_lines nth l_start l_end In]; intros H;
    repeat (destruct H as [<-|H]; [first [apply P; lia | reflexivity]|]); destruct H|]). destruct Hk.
Qed.
Lemma aligned_loss : get_loss h s = Fin (/ 2 * (sq (X 0%nat) + sq (Y 0%nat) + sq (Y 1%nat - Y 0%nat) + sq (Y 3%nat - Y 2%nat) + sq (X 2%nat - X 1%nat) + sq (X 0%nat - X 3%nat)
  + sq (X 1%nat - X 0%nat - 2) + sq (Y 3%nat - Y 0%nat - 3))).
Proof.
  rewrite get_loss_R by apply aligned_finite. f_equal. cbn [aligned_sketch s_cons seq map sumR fold_right]. rewrite !aligned_con.
  cbn [aligned_heap h_cons nth]. unfold lossR, residual2, dirR. rewrite !aligned_line. cbn [aligned_heap h_lines nth l_start l_end from_to fst snd].
  rewrite f0_R, f2_R, f3_R. cbn [vx]. unfold sq. field.
Qed.
Lemma aligned_error l : get_loss h s = Fin l -> sq (X 0%nat) + sq (Y 0%nat) <= 2 * l /\ sq (X 1%nat - 2) + sq (Y 1%nat) <= 4 * l /\
  sq (X 2%nat - 2) + sq (Y 2%nat - 3) <= 6 * l /\ sq (X 3%nat) + sq (Y 3%nat - 3) <= 4 * l.
Proof.
  rewrite aligned_loss. intros E. apply (f_equal vx) in E. cbn [vx] in E. rewrite <- E. clear E. unfold sq.
  set (a := X 0%nat). set (b := Y 0%nat). set (c := Y 1%nat - b). set (d := Y 3%nat - Y 2%nat). set (e := X 2%nat - X 1%nat). set (f := a - X 3%nat).
  set (g := X 1%nat - a - 2). set (k := Y 3%nat - b - 3).
  replace (X 1%nat - 2) with (a + g) by (unfold g; ring). replace (Y 1%nat) with (b + c) by (unfold c; ring).
  replace (X 2%nat - 2) with (a + g + e) by (unfold g, e; ring). replace (Y 2%nat - 3) with (b + k - d) by (unfold k, d; ring).
  replace (X 3%nat) with (a - f) by (unfold f; ring). replace (Y 3%nat - 3) with (b + k) by (unfold k; ring).
  clearbody a b c d e f g k.
  pose proof (Rle_0_sqr (a - g)). pose proof (Rle_0_sqr (a + f)). pose proof (Rle_0_sqr (a - e)). pose proof (Rle_0_sqr (g - e)).
  pose proof (Rle_0_sqr (b - c)). pose proof (Rle_0_sqr (b + d)). pose proof (Rle_0_sqr (b - k)). pose proof (Rle_0_sqr (k + d)).
  pose proof (Rle_0_sqr a). pose proof (Rle_0_sqr b). pose proof (Rle_0_sqr c). pose proof (Rle_0_sqr d). pose proof (Rle_0_sqr e). pose proof (Rle_0_sqr f). pose proof (Rle_0_sqr g). pose proof (Rle_0_sqr k).
  unfold Rsqr in *. repeat split; lra.
Qed.
Lemma sq2_zero a b l : sq a + sq b <= l -> l = 0 -> a = 0 /\ b = 0.
Proof. intros H ->. unfold sq in H. split; nra. Qed.
Lemma aligned_zero : get_loss h s = Fin 0 <-> point_at h 0%nat 0 0 /\ point_at h 1%nat 2 0 /\ point_at h 2%nat 2 3 /\ point_at h 3%nat 0 3.
Proof.
  unfold point_at, pdata, p_data. destruct (aligned_pt 0%nat) as [-> ->]; [lia|]. destruct (aligned_pt 1%nat) as [-> ->]; [lia|].
  destruct (aligned_pt 2%nat) as [-> ->]; [lia|]. destruct (aligned_pt 3%nat) as [-> ->]; [lia|]. split.
  - intros E. destruct (aligned_error 0 E) as (A & B & C & D). apply sq2_zero in A, B, C, D; try lra.
    destruct A as [-> ->], B as [B ->], C as [C1 C2], D as [-> D]. repeat split; f_equal; f_equal; lra.
  - intros (A & B & C & D). rewrite aligned_loss. apply fin2 in A as [-> ->], B as [-> ->], C as [-> ->], D as [-> ->].
    f_equal. unfold sq. field.
Qed.
Lemma aligned_asserts_R : aligned_asserts h = true <-> let e := / 100000000 in
  sq (X 0%nat) + sq (Y 0%nat) < e * e /\ sq (X 1%nat - 2) + sq (Y 1%nat) < e * e /\
  sq (X 2%nat - 2) + sq (Y 2%nat - 3) < e * e /\ sq (X 3%nat) + sq (Y 3%nat - 3) < e * e.
Proof.
  unfold aligned_asserts. rewrite f0_R, f2_R, f3_R, eps8_R.
  destruct (aligned_pt 0%nat) as [A1 A2]; [lia|]. destruct (aligned_pt 1%nat) as [B1 B2]; [lia|].
  destruct (aligned_pt 2%nat) as [C1 C2]; [lia|]. destruct (aligned_pt 3%nat) as [D1 D2]; [lia|].
  rewrite (away_R _ _ _ _ _ _ A1 A2), (away_R _ _ _ _ _ _ B1 B2), (away_R _ _ _ _ _ _ C1 C2), (away_R _ _ _ _ _ _ D1 D2).
  rewrite !andb_true_iff, !lt_true, !len_le_sq by lra. rewrite !Rminus_0_r. unfold sq. cbv zeta. tauto.
Qed.
Lemma aligned_asserts_loss l : get_loss h s = Fin l -> 6 * l < / 10 ^ 16 -> aligned_asserts h = true.
Proof.
  intros E H. apply aligned_asserts_R. destruct (aligned_error l E) as (A & B & C & D). pose proof (loss_pos _ _ _ aligned_finite E). cbv zeta.
  simpl in H. repeat split; lra.
Qed.
End Aligned.

(** the corners b and c displaced by d to the right *)
Definition aligned_off (d : R) : heap xR :=
  mkHeap [mkPoint (Fin 0) (Fin 0) f0 f0; mkPoint (Fin (2 + d)) (Fin 0) f0 f0; mkPoint (Fin (2 + d)) (Fin 3) f0 f0; mkPoint (Fin 0) (Fin 3) f0 f0]
    (h_lines (aligned_heap : heap xR)) [] [] (h_cons (aligned_heap : heap xR)).
Lemma aligned_off_ok d : same_structure aligned_heap (aligned_off d) /\ finite_data (aligned_off d) aligned_sketch.
Proof.
  assert (S : same_structure aligned_heap (aligned_off d)) by (repeat split; reflexivity). split; auto.
  intros c Hc. apply (valid_reg _ _ _ (aligned_valid _ S)) in Hc. cbn in Hc.
  repeat (destruct Hc as [<-|Hc]; [repeat constructor|]). destruct Hc.
Qed.
Lemma aligned_off_lemma : exists h : heap xR, same_structure aligned_heap h /\ finite_data h aligned_sketch /\
  bfgs_run aligned_sketch bfgs_default h = (h, Val (SOk 0%N)) /\ aligned_asserts h = false.
Proof.
  exists (aligned_off (12 / 10 ^ 9)). destruct (aligned_off_ok (12 / 10 ^ 9)) as [S FD]. do 2 (split; auto).
  set (d := 12 / 10 ^ 9) in *. assert (Hd : d = 12 / 1000000000) by (unfold d; simpl; field). split.
  - assert (L : flt (get_loss (aligned_off d) aligned_sketch) (flit 1 16) = true).
    { rewrite (aligned_loss _ S FD). change (flit 1 16) with (Fin (1 / 10 ^ 16)). apply lt_true. cbn [cfg_of cx cy aligned_off getP h_pts nth p_x p_y vx].
      rewrite Hd. unfold sq. simpl. lra. }
    now apply bfgs_at_once.
  - apply not_true_iff_false. rewrite (aligned_asserts_R _ S FD). cbv zeta. intros (_ & H & _). revert H.
    cbn [cfg_of cx cy aligned_off getP h_pts nth p_x p_y vx]. rewrite Hd. unfold sq. lra.
Qed.

(** ** the rotated rectangle *)
Lemma pi4_R : to_radians (flit 45 0 : xR) = Fin (PI / 4).
Proof.
  unfold to_radians. change (fpi : xR) with (Fin PI). change (flit 180 0 : xR) with (Fin (180 / 1)). rewrite div_R by lra.
  change (flit 45 0 : xR) with (Fin (45 / 1)). cbn [fmul ArithR xmul]. f_equal. field.
Qed.
Lemma sqrt2_pos : 0 < sqrt 2. Proof. apply sqrt_lt_R0; lra. Qed.
Lemma sqrt2_sq : sqrt 2 * sqrt 2 = 2. Proof. apply sqrt_sqrt; lra. Qed.
Lemma acos_quarter x : -1 <= x <= 1 -> acos x = PI / 4 <-> x * sqrt 2 = 1.
Proof.
  intros B. pose proof sqrt2_pos. pose proof sqrt2_sq. pose proof PI_RGT_0. split; intros H2.
  - apply (f_equal cos) in H2. rewrite cos_acos, cos_PI4 in H2 by auto. rewrite H2. field. lra.
  - assert (x = cos (PI / 4)) as -> by (rewrite cos_PI4; apply (Rmult_eq_reg_r (sqrt 2)); [rewrite H2; field; lra | lra]).
    apply acos_cos; lra.
Qed.
Lemma sq_eq a b : 0 <= b -> a * a = b * b -> a = b \/ a = - b.
Proof. intros _ H. assert (E : (a - b) * (a + b) = 0) by lra. apply Rmult_integral in E as [E|E]; [left | right]; lra. Qed.
(** the plane turned so that ab lies along the first axis *)
Lemma rectangle_plane (p q y : R) : p * p + q * q = 9 -> (q - y) * y = 0 -> p * (p - 2) + q * (q - y) = 0 ->
  (p = 0 /\ q = y /\ q * q = 9) \/ (p = 2 /\ q = y /\ q * q = 5).
Proof.
  intros H1 H2 H3. apply Rmult_integral in H2 as [H2|H2].
  - assert (q = y) by lra. replace (q - y) with 0 in H3 by lra. assert (E : p * (p - 2) = 0) by lra. apply Rmult_integral in E as [E|E].
    + left. subst p. repeat split; lra.
    + right. assert (p = 2) by lra. subst p. repeat split; lra.
  - exfalso. subst y. assert (p * 2 = 9) by lra. assert (p = 9 / 2) by lra. subst p. nra.
Qed.

Section Rotated.
Variable h : heap xR.
Hypothesis S : same_structure rotated_heap h.
Hypothesis FD : finite_data h rotated_sketch.
Local Notation s := rotated_sketch.
Local Notation X := (cx (cfg_of h)).
Local Notation Y := (cy (cfg_of h)).
Lemma rotated_valid0 : valid (rotated_heap : heap xR) s.
Proof.
  assert (R : run nopinvR init rotated_ops rotated_rets (rotated_heap, s)) by (apply rotated_run; try reflexivity; now rewrite pi4_R).
  apply (reachable_valid _ _ _ _ R). unfold few. cbn. lia.
Qed.
Lemma rotated_valid : valid h s.
Proof. eapply valid_struct; [apply rotated_valid0 | exact S]. Qed.
Lemma rotated_pt i : (i < 5)%nat -> p_x (getP h i) = Fin (X i) /\ p_y (getP h i) = Fin (Y i).
Proof.
  intros Hi. assert (R : registered s (PPoint i)).
  { apply (valid_reg _ _ _ rotated_valid). do 5 (destruct i as [|i]; [cbn; tauto|]). exfalso; lia. }
  pose proof (FD _ R) as F. cbn [prim_data] in F. inversion_clear F as [|? ? F1 F2]. inversion_clear F2 as [|? ? F3 _].
  cbn [cx cy cfg_of]. destruct (p_x (getP h i)), (p_y (getP h i)); try discriminate; auto.
Qed.
Lemma rotated_at i x y : (i < 5)%nat -> point_at h i x y <-> X i = x /\ Y i = y.
Proof.
  intros Hi. unfold point_at, pdata, p_data. destruct (rotated_pt i Hi) as [-> ->]. split; [apply fin2 | intros [-> ->]; reflexivity].
Qed.
Lemma rotated_con k : getK h k = nth k (h_cons (rotated_heap : heap xR)) con0.
Proof. destruct S as (_ & E & _). unfold getK. now rewrite E. Qed.
Lemma rotated_line k : getL h k = nth k (h_lines (rotated_heap : heap xR)) line0.
Proof. destruct S as (E & _). unfold getL. now rewrite E. Qed.
Lemma rotated_finite : all_con_finite h s.
Proof.
  assert (P : forall i, (i < 5)%nat -> all_finite (prim_data h (PPoint i)) = true).
  { intros i Hi. destruct (rotated_pt i Hi) as [E1 E2]. cbn [prim_data]. rewrite E1, E2. reflexivity. }
  intros k Hk. rewrite rotated_con. cbn in Hk.
  repeat (destruct Hk as [<-|Hk]; [split; [cbn [rotated_heap h_cons nth con_new_ok]; rewrite ?pi4_R; reflexivity|]; intros d; unfold deps; cbn [rotated_heap h_cons nth con_refs flat_map prim_refs app];
    rewrite ?rotated_line; cbn [rotated_heap h_lines nth l_start l_end In]; intros H;
    repeat (destruct H as [<-|H]; [first [apply P; lia | reflexivity]|]); destruct H|]). destruct Hk.
Qed.
Lemma rotated_sat : (forall k, In k (s_cons s) -> satisfied (cfg_of h) h (getK h k)) <->
  (X 0%nat = 0 /\ Y 0%nat = 0) /\
  dotR (from_to (cfg_of h) 0%nat 1%nat) (from_to (cfg_of h) 1%nat 2%nat) = 0 /\
  dotR (from_to (cfg_of h) 1%nat 2%nat) (from_to (cfg_of h) 2%nat 3%nat) = 0 /\
  dotR (from_to (cfg_of h) 2%nat 3%nat) (from_to (cfg_of h) 3%nat 0%nat) = 0 /\
  len (from_to (cfg_of h) 1%nat 0%nat) = 2 /\ len (from_to (cfg_of h) 3%nat 0%nat) = 3 /\
  (X 4%nat = 1 /\ Y 4%nat = 0) /\
  satisfied (cfg_of h) h (AngleBetweenPoints 4%nat 1%nat 0%nat (Fin (PI / 4))).
Proof.
  cbn [rotated_sketch s_cons]. cbn [seq]. split.
  - intros H. assert (G : forall k, (k < 8)%nat -> satisfied (cfg_of h) h (nth k (h_cons (rotated_heap : heap xR)) con0)).
    { intros k Hk. rewrite <- rotated_con. apply H. apply (in_seq 8 0 k). lia. }
    clear H. pose proof (G 0%nat ltac:(lia)) as H0. pose proof (G 1%nat ltac:(lia)) as H1. pose proof (G 2%nat ltac:(lia)) as H2. pose proof (G 3%nat ltac:(lia)) as H3.
    pose proof (G 4%nat ltac:(lia)) as H4. pose proof (G 5%nat ltac:(lia)) as H5. pose proof (G 6%nat ltac:(lia)) as H6. pose proof (G 7%nat ltac:(lia)) as H7. clear G.
    cbn [rotated_heap h_cons nth] in H0, H1, H2, H3, H4, H5, H6, H7. rewrite pi4_R in H7. cbn [satisfied] in H0, H1, H2, H3, H4, H5, H6. unfold dirR in H1, H2, H3.
    rewrite !rotated_line in H1, H2, H3. cbn [rotated_heap h_lines nth l_start l_end] in H1, H2, H3.
    rewrite f0_R in H0. rewrite f2_R in H4. rewrite f3_R in H5. rewrite f0_R, f1_R in H6. cbn [vx] in H0, H4, H5, H6. tauto.
  - intros (H0 & H1 & H2 & H3 & H4 & H5 & H6 & H7) k Hk. rewrite rotated_con.
    repeat (destruct Hk as [<-|Hk]; [cbn [rotated_heap h_cons nth]; rewrite ?pi4_R; first [exact H7 |
      cbn [satisfied]; unfold dirR; rewrite ?rotated_line; cbn [rotated_heap h_lines nth l_start l_end]; rewrite ?f0_R, ?f1_R, ?f2_R, ?f3_R; cbn [vx]; assumption]|]).
    destruct Hk.
Qed.
Lemma rotated_angle bx by_ : X 0%nat = 0 -> Y 0%nat = 0 -> X 4%nat = 1 -> Y 4%nat = 0 -> X 1%nat = bx -> Y 1%nat = by_ -> bx * bx + by_ * by_ = 4 ->
  satisfied (cfg_of h) h (AngleBetweenPoints 4%nat 1%nat 0%nat (Fin (PI / 4))) <-> bx = sqrt 2.
Proof.
  intros E1 E2 E3 E4 E5 E6 Q. cbn [satisfied]. unfold angleR, from_to. rewrite E1, E2, E3, E4, E5, E6, !Rminus_0_r. cbn [vx].
  assert (L1 : len (1, 0) = 1) by (unfold len; cbn [fst snd]; replace (1 * 1 + 0 * 0) with 1 by ring; apply sqrt_1).
  assert (L2 : len (bx, by_) = 2) by (unfold len; cbn [fst snd]; rewrite Q; replace 4 with (2 * 2) by ring; apply sqrt_square; lra).
  rewrite L1, L2. unfold tiny. destruct (Rlt_dec 1 _); [lra|]. destruct (Rlt_dec 2 _); [lra|]. unfold dotR; cbn [fst snd].
  replace ((1 * bx + 0 * by_) / (1 * 2)) with (bx / 2) by field. pose proof sqrt2_pos. pose proof sqrt2_sq. rewrite acos_quarter by nra. split; intros G.
  - apply (Rmult_eq_reg_r (sqrt 2)); lra.
  - rewrite G. lra.
Qed.
Lemma rotated_zero : get_loss h s = Fin 0 <-> exists sg t, plus_or_minus sg /\ plus_or_minus t /\ rotated_base h sg /\ (rotated_rectangle h sg t \/ rotated_triangle h sg t).
Proof.
  rewrite (C14_zero_lemma h s rotated_finite), rotated_sat. unfold rotated_base, rotated_rectangle, rotated_triangle.
  pose proof sqrt2_pos as K. pose proof sqrt2_sq as K2. assert (K5 : sqrt 5 * sqrt 5 = 5) by (apply sqrt_sqrt; lra). pose proof (sqrt_pos 5) as P5.
  set (k := sqrt 2) in *. set (r5 := sqrt 5) in *.
  split.
  - intros ((A1 & A2) & H1 & H2 & H3 & L1 & L2 & (R1 & R2) & An).
    pose proof (len_sq (from_to (cfg_of h) 1%nat 0%nat)) as Q1. pose proof (len_sq (from_to (cfg_of h) 3%nat 0%nat)) as Q2. rewrite L1 in Q1. rewrite L2 in Q2.
    unfold from_to in Q1, Q2, H1, H2, H3. unfold dotR in H1, H2, H3. cbn [fst snd] in *. rewrite A1, A2 in Q1, Q2, H1, H3.
    apply (rotated_angle (X 1%nat) (Y 1%nat)) in An; auto; [|lra]. fold k in An. rewrite An in Q1, H1, H2.
    assert (B2 : Y 1%nat * Y 1%nat = k * k) by lra. apply sq_eq in B2; [|lra].
    assert (exists sg, plus_or_minus sg /\ Y 1%nat = sg * k) as (sg & Hsg & B). { destruct B2 as [->| ->]; [exists 1 | exists (-1)]; (split; [|lra]); [left|right]; reflexivity. }
    clear B2. rewrite B in Q1, H1, H2. assert (SS : sg * sg = 1) by (destruct Hsg as [->| ->]; lra).
    set (cx_ := X 2%nat) in *. set (cy_ := Y 2%nat) in *. set (dx := X 3%nat) in *. set (dy := Y 3%nat) in *.
    set (y := (cy_ - sg * cx_) / k). set (p := (dx + sg * dy) / k). set (q := (dy - sg * dx) / k).
    assert (C0 : cx_ + sg * cy_ = 2 * k).
    { apply (Rmult_eq_reg_l k); [|lra]. replace (k * (cx_ + sg * cy_)) with ((k - 0) * (cx_ - k) + (sg * k - 0) * (cy_ - sg * k) + k * k + sg * sg * (k * k)) by ring. rewrite H1, SS. lra. }
    assert (Cx : cx_ = (2 - sg * y) / k).
    { apply (Rmult_eq_reg_r k); [|lra]. unfold y. replace ((2 - sg * ((cy_ - sg * cx_) / k)) / k * k) with ((2 * k - sg * cy_ + sg * sg * cx_) / k) by (field; lra). rewrite SS, <- C0.
      replace ((cx_ + sg * cy_ - sg * cy_ + 1 * cx_) / k) with (cx_ * 2 / k) by (field; lra). rewrite <- K2. field. lra. }
    assert (Cy : cy_ = (sg * 2 + y) / k).
    { apply (Rmult_eq_reg_r k); [|lra]. unfold y. replace ((sg * 2 + (cy_ - sg * cx_) / k) / k * k) with ((sg * (2 * k) + cy_ - sg * cx_) / k) by (field; lra). rewrite <- C0.
      replace ((sg * (cx_ + sg * cy_) + cy_ - sg * cx_) / k) with ((sg * sg + 1) * cy_ / k) by (field; lra). rewrite SS. replace (1 + 1) with (k * k) by lra. field. lra. }
    assert (Dx : dx = (p - sg * q) / k).
    { unfold p, q. replace (((dx + sg * dy) / k - sg * ((dy - sg * dx) / k)) / k) with ((1 + sg * sg) * dx / (k * k)) by (field; lra). rewrite SS, K2. field. }
    assert (Dy : dy = (sg * p + q) / k).
    { unfold p, q. replace ((sg * ((dx + sg * dy) / k) + (dy - sg * dx) / k) / k) with ((1 + sg * sg) * dy / (k * k)) by (field; lra). rewrite SS, K2. field. }
    assert (I2 : / k * / k = / 2) by (rewrite <- K2; field; lra). assert (Ek : k = 2 / k) by (rewrite <- K2; field; lra).
    assert (Z1 : p * p + q * q = 9).
    { replace (p * p + q * q) with ((1 + sg * sg) * (p * p + q * q) * / 2) by (rewrite SS; field). rewrite <- I2.
      replace ((1 + sg * sg) * (p * p + q * q) * (/ k * / k)) with (((p - sg * q) / k) * ((p - sg * q) / k) + ((sg * p + q) / k) * ((sg * p + q) / k)) by (field; lra).
      rewrite <- Dx, <- Dy. lra. }
    assert (Z2 : (q - y) * y = 0).
    { replace ((q - y) * y) with ((1 + sg * sg) * ((q - y) * y) * / 2) by (rewrite SS; field). rewrite <- I2.
      assert (H2' : (cx_ - 2 / k) * (dx - cx_) + (cy_ - sg * (2 / k)) * (dy - cy_) = 0) by (rewrite <- Ek; exact H2). rewrite <- H2', Cx, Cy, Dx, Dy. field. lra. }
    assert (Z3 : p * (p - 2) + q * (q - y) = 0).
    { replace (p * (p - 2) + q * (q - y)) with ((1 + sg * sg) * (p * (p - 2) + q * (q - y)) * / 2) by (rewrite SS; field). rewrite <- I2.
      rewrite <- (Ropp_0), <- H3. rewrite Cx, Cy, Dx, Dy. field. lra. }
    destruct (rectangle_plane p q y Z1 Z2 Z3) as [(Ep & Eq & Q)|(Ep & Eq & Q)].
    + replace 9 with (3 * 3) in Q by ring. apply sq_eq in Q; [|lra].
      assert (exists t, plus_or_minus t /\ q = t * 3) as (t & Ht & Et). { destruct Q as [-> | ->]; [exists 1 | exists (-1)]; (split; [|lra]); [left|right]; reflexivity. }
      exists sg, t. do 2 (split; [auto|]). rewrite !rotated_at by lia. split; [auto|]. left. fold cx_ cy_ dx dy.
      rewrite Cx, Cy, Dx, Dy, <- Eq, Ep, Et.
      repeat split; [transitivity (2 / k - sg * t * 3 / k); [field; lra | now rewrite <- Ek] | transitivity (sg * (2 / k) + t * 3 / k); [field; lra | now rewrite <- Ek] | field; lra | field; lra].
    + rewrite <- K5 in Q. apply sq_eq in Q; [|lra].
      assert (exists t, plus_or_minus t /\ q = t * r5) as (t & Ht & Et). { destruct Q as [-> | ->]; [exists 1 | exists (-1)]; (split; [|lra]); [left|right]; reflexivity. }
      exists sg, t. do 2 (split; [auto|]). rewrite !rotated_at by lia. split; [auto|]. right. fold cx_ cy_ dx dy.
      rewrite Cx, Cy, Dx, Dy, <- Eq, Ep, Et.
      repeat split; [transitivity (2 / k - sg * t * r5 / k) | transitivity (sg * (2 / k) + t * r5 / k) | transitivity (2 / k - sg * t * r5 / k) | transitivity (sg * (2 / k) + t * r5 / k)];
        try (field; lra); rewrite <- Ek; reflexivity.
  - intros (sg & t & Hsg & Ht & (A & R & B) & H). assert (SS : sg * sg = 1) by (destruct Hsg as [->| ->]; lra). assert (TT : t * t = 1) by (destruct Ht as [->| ->]; lra).
    apply rotated_at in A as [A1 A2], B as [B1 B2], R as [R1 R2]; try lia.
    assert (An : satisfied (cfg_of h) h (AngleBetweenPoints 4%nat 1%nat 0%nat (Fin (PI / 4)))).
    { apply (rotated_angle k (sg * k)); auto. replace (sg * k * (sg * k)) with (sg * sg * (k * k)) by ring. rewrite SS. lra. }
    assert (Lb : len (from_to (cfg_of h) 1%nat 0%nat) = 2).
    { unfold len, from_to. cbn [fst snd]. rewrite A1, A2, B1, B2. replace ((0 - k) * (0 - k) + (0 - sg * k) * (0 - sg * k)) with (k * k + sg * sg * (k * k)) by ring.
      rewrite SS, K2. replace (2 + 1 * 2) with (2 * 2) by ring. apply sqrt_square. lra. }
    set (I := / k) in *. assert (KI : k * I = 1) by (unfold I; field; lra). assert (I2 : I * I = / 2) by (unfold I; rewrite <- K2; field; lra).
    unfold dotR, from_to in *. cbn [fst snd]. rewrite A1, A2, B1, B2 in Lb |- *.
    destruct H as [[C D]|[C D]]; apply rotated_at in C as [C1 C2], D as [D1 D2]; try lia; unfold Rdiv in C1, C2, D1, D2; fold I in C1, C2, D1, D2.
    + repeat split; auto; rewrite ?C1, ?C2, ?D1, ?D2; try ring.
      unfold len; cbn [fst snd]. replace ((0 - - sg * t * 3 * I) * (0 - - sg * t * 3 * I) + (0 - t * 3 * I) * (0 - t * 3 * I)) with ((sg * sg * (t * t) + t * t) * 9 * (I * I)) by ring.
        rewrite SS, TT, I2. replace ((1 * 1 + 1) * 9 * / 2) with (3 * 3) by field. apply sqrt_square. lra.
    + repeat split; auto; rewrite ?C1, ?C2, ?D1, ?D2; try ring.
      unfold len; cbn [fst snd].
      replace ((0 - (k - sg * t * r5 * I)) * (0 - (k - sg * t * r5 * I)) + (0 - (sg * k + t * r5 * I)) * (0 - (sg * k + t * r5 * I)))
        with ((1 + sg * sg) * (k * k) + (sg * sg * (t * t) + t * t) * (r5 * r5) * (I * I)) by ring.
      rewrite SS, TT, K2, K5, I2. replace ((1 + 1) * 2 + (1 * 1 + 1) * 5 * / 2) with (3 * 3) by field. apply sqrt_square. lra.
Qed.
Lemma rotated_near p x y e : (p < 5)%nat -> X p = x -> Y p = y -> 0 < e -> fge (away h p (Fin x) (Fin y)) (Fin e) = false.
Proof.
  intros Hp <- <- He. destruct (rotated_pt p Hp) as [E1 E2]. rewrite (away_R _ _ _ _ _ _ E1 E2). apply le_false. rewrite !Rminus_diag_eq by reflexivity.
  unfold len. cbn [fst snd]. rewrite Rmult_0_l, Rplus_0_r, sqrt_0. auto.
Qed.
Lemma rotated_far p x y e : (p < 5)%nat -> 0 <= e -> e * e <= sq (X p - x) + sq (Y p - y) -> fge (away h p (Fin x) (Fin y)) (Fin e) = true.
Proof.
  intros Hp He H. destruct (rotated_pt p Hp) as [E1 E2]. rewrite (away_R _ _ _ _ _ _ E1 E2). apply le_true. apply Rnot_lt_le. intros G. apply len_le_sq in G; auto. unfold sq in H. lra.
Qed.
Lemma halves : sqrt 2 / 2 = / sqrt 2.
Proof. pose proof sqrt2_pos. rewrite <- sqrt2_sq at 2. field. lra. Qed.
Lemma s2_R : fsqrt (f2 : xR) = Fin (sqrt 2). Proof. rewrite f2_R. apply sqrt_R. lra. Qed.
Lemma s22_R : fsqrt (f2 : xR) /f f2 = Fin (/ sqrt 2). Proof. rewrite s2_R, f2_R, div_R by lra. now rewrite halves. Qed.
(** which branch the check takes *)
Lemma rotated_branch sg t r e : plus_or_minus sg -> plus_or_minus t -> rotated_base h sg -> 0 < e -> 0 < r -> Y 2%nat = sg * sqrt 2 + t * r ->
  rotated_check h (Fin e) = negb (fge (away h 2%nat (Fin (sqrt 2 - sg * t * 3 / sqrt 2)) (Fin (sg * sqrt 2 + t * 3 / sqrt 2))) (Fin e)) &&
    negb (fge (away h 3%nat (Fin (- sg * t * 3 / sqrt 2)) (Fin (t * 3 / sqrt 2))) (Fin e)).
Proof.
  intros Hsg Ht (A & R & B) He Hr EY. apply rotated_at in A as [A1 A2], B as [B1 B2], R as [R1 R2]; try lia.
  destruct (rotated_pt 1%nat) as [_ PB]; [lia|]. destruct (rotated_pt 2%nat) as [_ PC]; [lia|].
  unfold rotated_check. rewrite s22_R, s2_R, f0_R, f1_R, f3_R, PB, PC. change (flit 5 0 : xR) with (Fin (5 / 1)).
  rewrite (rotated_near 4%nat 1 0 e), (rotated_near 0%nat 0 0 e) by (auto; lia). pose proof sqrt2_pos as K. pose proof sqrt2_sq as K2. set (k := sqrt 2) in *.
  assert (Ek : k = 2 * / k) by (rewrite <- K2; field; lra). set (I := / k) in *.
  cbn [fneg fmul ArithR xneg xmul]. rewrite B2, EY.
  destruct Hsg as [-> | ->].
  - replace (flt (Fin (1 * k)) (Fin 0)) with false by (symmetry; apply lt_false; lra). rewrite (rotated_near 1%nat k k e) by (auto; first [lia | lra]).
    unfold fgt. destruct Ht as [-> | ->].
    + replace (flt (Fin (1 * k)) (Fin (1 * k + 1 * r))) with true by (symmetry; apply lt_true; lra). replace (k - 1 * 1 * 3 / k) with (- I) by (unfold Rdiv; fold I; lra).
      replace (1 * k + 1 * 3 / k) with (5 / 1 * I) by (unfold Rdiv; fold I; lra). replace (- (1) * 1 * 3 / k) with (- 3 * I) by (unfold Rdiv; fold I; lra).
      replace (1 * 3 / k) with (3 * I) by (unfold Rdiv; fold I; lra). destruct (fge _ _); reflexivity.
    + replace (flt (Fin (1 * k)) (Fin (1 * k + -1 * r))) with false by (symmetry; apply lt_false; lra). replace (k - 1 * -1 * 3 / k) with (5 / 1 * I) by (unfold Rdiv; fold I; lra).
      replace (1 * k + -1 * 3 / k) with (- I) by (unfold Rdiv; fold I; lra). replace (- (1) * -1 * 3 / k) with (3 * I) by (unfold Rdiv; fold I; lra).
      replace (-1 * 3 / k) with (- 3 * I) by (unfold Rdiv; fold I; lra). destruct (fge _ _); reflexivity.
  - replace (flt (Fin (-1 * k)) (Fin 0)) with true by (symmetry; apply lt_true; lra). rewrite (rotated_near 1%nat k (- k) e) by (auto; first [lia | lra]).
    destruct Ht as [-> | ->].
    + replace (flt (Fin (-1 * k + 1 * r)) (Fin (-1 * k))) with false by (symmetry; apply lt_false; lra). replace (k - -1 * 1 * 3 / k) with (5 / 1 * I) by (unfold Rdiv; fold I; lra).
      replace (-1 * k + 1 * 3 / k) with I by (unfold Rdiv; fold I; lra). replace (- (-1) * 1 * 3 / k) with (3 * I) by (unfold Rdiv; fold I; lra).
      replace (1 * 3 / k) with (3 * I) by (unfold Rdiv; fold I; lra). destruct (fge _ _); reflexivity.
    + replace (flt (Fin (-1 * k + -1 * r)) (Fin (-1 * k))) with true by (symmetry; apply lt_true; lra). replace (k - -1 * -1 * 3 / k) with (- I) by (unfold Rdiv; fold I; lra).
      replace (-1 * k + -1 * 3 / k) with (- (5 / 1) * I) by (unfold Rdiv; fold I; lra). replace (- (-1) * -1 * 3 / k) with (- 3 * I) by (unfold Rdiv; fold I; lra).
      replace (-1 * 3 / k) with (- 3 * I) by (unfold Rdiv; fold I; lra). destruct (fge _ _); reflexivity.
Qed.
Lemma rotated_check_rectangle sg t e : plus_or_minus sg -> plus_or_minus t -> rotated_base h sg -> rotated_rectangle h sg t -> 0 < e -> rotated_check h (Fin e) = true.
Proof.
  intros Hsg Ht HB [C D] He. apply rotated_at in C as [C1 C2], D as [D1 D2]; try lia. pose proof sqrt2_pos as K.
  rewrite (rotated_branch sg t (3 / sqrt 2) e); auto; [|apply Rdiv_lt_0_compat; lra | rewrite C2; unfold Rdiv; ring].
  now rewrite !rotated_near by (auto; lia).
Qed.
Lemma rotated_check_triangle sg t e : plus_or_minus sg -> plus_or_minus t -> rotated_base h sg -> rotated_triangle h sg t -> 0 < e <= 1 / 2 -> rotated_check h (Fin e) = false.
Proof.
  intros Hsg Ht HB [C D] He. apply rotated_at in C as [C1 C2], D as [D1 D2]; try lia. pose proof sqrt2_pos as K. pose proof sqrt2_sq as K2.
  assert (K5 : sqrt 5 * sqrt 5 = 5) by (apply sqrt_sqrt; lra). assert (P5 : 0 < sqrt 5) by (apply sqrt_lt_R0; lra).
  rewrite (rotated_branch sg t (sqrt 5 / sqrt 2) e); auto; [|lra | apply Rdiv_lt_0_compat; lra | rewrite C2; unfold Rdiv; ring].
  rewrite rotated_far; [reflexivity | lia | lra |]. rewrite C1, C2. assert (SS : sg * sg = 1) by (destruct Hsg as [->| ->]; lra). assert (TT : t * t = 1) by (destruct Ht as [->| ->]; lra).
  set (k := sqrt 2) in *. set (r := sqrt 5) in *. unfold Rdiv. set (I := / k). assert (I2 : I * I = / 2) by (unfold I; rewrite <- K2; field; lra). unfold sq.
  match goal with |- _ <= ?a => replace a with ((sg * sg * (t * t) + t * t) * ((3 - r) * (3 - r)) * (I * I)) by ring end. rewrite SS, TT, I2.
  assert (r <= 9 / 4) by nra. nra.
Qed.
End Rotated.

(** the triangle, up and to the left *)
Definition triangle_heap : heap xR :=
  let x := sqrt 2 - 1 * 1 * sqrt 5 / sqrt 2 in let y := 1 * sqrt 2 + 1 * sqrt 5 / sqrt 2 in
  mkHeap [mkPoint (Fin 0) (Fin 0) f0 f0; mkPoint (Fin (sqrt 2)) (Fin (1 * sqrt 2)) f0 f0; mkPoint (Fin x) (Fin y) f0 f0; mkPoint (Fin x) (Fin y) f0 f0; mkPoint (Fin 1) (Fin 0) f0 f0]
    (h_lines (rotated_heap : heap xR)) [] [] (h_cons (rotated_heap : heap xR)).
Definition rectangle_heap : heap xR :=
  mkHeap [mkPoint (Fin 0) (Fin 0) f0 f0; mkPoint (Fin (sqrt 2)) (Fin (1 * sqrt 2)) f0 f0;
          mkPoint (Fin (sqrt 2 - 1 * 1 * 3 / sqrt 2)) (Fin (1 * sqrt 2 + 1 * 3 / sqrt 2)) f0 f0; mkPoint (Fin (- (1) * 1 * 3 / sqrt 2)) (Fin (1 * 3 / sqrt 2)) f0 f0; mkPoint (Fin 1) (Fin 0) f0 f0]
    (h_lines (rotated_heap : heap xR)) [] [] (h_cons (rotated_heap : heap xR)).
Lemma triangle_ok : same_structure rotated_heap triangle_heap /\ finite_data triangle_heap rotated_sketch.
Proof.
  assert (S : same_structure rotated_heap triangle_heap) by (repeat split; reflexivity). split; auto.
  intros c Hc. apply (valid_reg _ _ _ (rotated_valid _ S)) in Hc. cbn in Hc.
  repeat (destruct Hc as [<-|Hc]; [repeat constructor|]). destruct Hc.
Qed.
Lemma rectangle_ok : same_structure rotated_heap rectangle_heap /\ finite_data rectangle_heap rotated_sketch.
Proof.
  assert (S : same_structure rotated_heap rectangle_heap) by (repeat split; reflexivity). split; auto.
  intros c Hc. apply (valid_reg _ _ _ (rotated_valid _ S)) in Hc. cbn in Hc.
  repeat (destruct Hc as [<-|Hc]; [repeat constructor|]). destruct Hc.
Qed.
Lemma rotated_bad : exists h : heap xR, same_structure rotated_heap h /\ finite_data h rotated_sketch /\ get_loss h rotated_sketch = Fin 0 /\
  forall e, 0 < e <= 1 / 2 -> rotated_check h (Fin e) = false.
Proof.
  exists triangle_heap. destruct triangle_ok as [S FD]. do 2 (split; auto).
  assert (B : rotated_base triangle_heap 1) by (repeat split). assert (T : rotated_triangle triangle_heap 1 1) by (repeat split). assert (P : plus_or_minus 1) by now left.
  split; [apply rotated_zero; auto; exists 1, 1; auto|]. intros e He. now apply (rotated_check_triangle _ S FD 1 1).
Qed.
Lemma rotated_good : exists h : heap xR, same_structure rotated_heap h /\ finite_data h rotated_sketch /\ get_loss h rotated_sketch = Fin 0 /\
  pdata h 2%nat <> pdata h 3%nat.
Proof.
  exists rectangle_heap. destruct rectangle_ok as [S FD]. do 2 (split; auto).
  assert (B : rotated_base rectangle_heap 1) by (repeat split). assert (T : rotated_rectangle rectangle_heap 1 1) by (repeat split). assert (P : plus_or_minus 1) by now left.
  split; [apply rotated_zero; auto; exists 1, 1; auto|]. unfold pdata, p_data. cbn [rectangle_heap getP h_pts nth p_x p_y]. intros E. apply fin2 in E as [_ E].
  pose proof sqrt2_pos. lra.
Qed.
Lemma rotated_accepts (h : heap xR) e : same_structure rotated_heap h -> finite_data h rotated_sketch -> get_loss h rotated_sketch = Fin 0 ->
  pdata h 2%nat <> pdata h 3%nat -> 0 < e -> rotated_check h (Fin e) = true.
Proof.
  intros S FD Z N He. apply rotated_zero in Z as (sg & t & Hsg & Ht & B & [R|[C D]]); auto; [now apply (rotated_check_rectangle h S FD sg t)|].
  exfalso. apply N. unfold point_at in C, D. now rewrite C, D.
Qed.
