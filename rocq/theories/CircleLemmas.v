(** * The circle benchmark over the real numbers *)
From Coq Require Import List ZArith NArith Arith Bool Lia Reals Lra.
From Verif Require Import Arith Vec Prim Cons Sketch Solve Api Spec SolverSpec ArithR ExactSpec LinearSpec Bench BenchSpec
  HeapLemmas SolveLemmas WfLemmas DataLemmas BookLemmas SpecLemmas ExactLemmas GradLemmas LossLemmas RMat SearchLemmas StepLemmas
  ExactRun SolverForms SymLemmas LinearLemmas LinearForms BuildLemmas BenchLemmas.
Import ListNotations.
Local Open Scope R_scope.

(** ** placing the points of a stairs sketch anywhere *)
Lemma stairs_place n (px py : nat -> R) : (1 <= n)%nat -> few (8 * n) -> exists h : heap xR, same_structure (stairs_heap n) h /\
  finite_data h (stairs_sketch n) /\ forall i, (i < n)%nat -> cx (cfg_of h) i = px i /\ cy (cfg_of h) i = py i.
Proof.
  intros Hn Hf. pose proof (stairs_valid0 n Hn Hf) as V. set (x := flat_map (fun i => [px i; py i]) (seq 0 n)).
  assert (S0 : same_structure (stairs_heap n : heap xR) (stairs_heap n)) by apply (pre_refl _ struct_pre).
  assert (F0 : finite_data (stairs_heap n : heap xR) (stairs_sketch n)).
  { intros c Hc. apply (valid_reg _ _ _ V) in Hc. apply Forall_forall. intros a Ha.
    destruct c as [l|l|l|l]; cbn [prim_data] in Ha; [|destruct Ha|unfold cells, stairs_sketch, points_then_lines in Hc; cbn [s_prims] in Hc..].
    - unfold getP, stairs_heap in Ha; cbn [h_pts] in Ha.
      destruct (nth_in_or_default l (repeat (mkPoint (f0 : xR) f0 f0 f0) n) pt0) as [H|H].
      + apply repeat_spec in H. rewrite H in Ha. destruct Ha as [<-|[<-|[]]]; reflexivity.
      + rewrite H in Ha. destruct Ha as [<-|[<-|[]]]; reflexivity.
    - exfalso. rewrite map_app, !map_map, in_app_iff, !in_map_iff in Hc. destruct Hc as [(? & E & _)|(? & E & _)]; discriminate.
    - exfalso. rewrite map_app, !map_map, in_app_iff, !in_map_iff in Hc. destruct Hc as [(? & E & _)|(? & E & _)]; discriminate. }
  destruct (set_data_ok (stairs_sketch n) (map Fin x) (stairs_heap n)) as [h E].
  { rewrite map_length, <- (stair_length n Hn Hf _ S0 F0). unfold x, stair_list. now rewrite !len2. }
  { apply finite_FinV. }
  assert (G := C09_set_get _ _ _ _ V E). assert (Fr : frame (stairs_sketch n) (stairs_heap n) h) by (eapply set_frame, E).
  assert (S : same_structure (stairs_heap n) h) by apply Fr.
  assert (FD : finite_data h (stairs_sketch n)) by (apply (finite_iff _ _ (valid_keys _ _ V)); rewrite G; apply finite_FinV).
  exists h. split; auto. split; auto. intros i Hi. rewrite (stairs_data n Hn Hf h S FD) in G. apply (f_equal (map vx)) in G. rewrite !map_vx_Fin in G.
  destruct (nth_pairs (cx (cfg_of h)) (cy (cfg_of h)) 0 (seq 0 n) i 0%nat) as [N1 N2]; [now rewrite seq_length|].
  destruct (nth_pairs px py 0 (seq 0 n) i 0%nat) as [N3 N4]; [now rewrite seq_length|].
  unfold x in G. rewrite G, seq_nth in N1, N2 by auto. rewrite N3, seq_nth in N1 by auto. rewrite N4, seq_nth in N2 by auto. cbn [Nat.add] in *. auto.
Qed.
Lemma stairs_blind n B : (2 <= n)%nat -> few (8 * n) -> 0 <= B -> exists (h : heap xR) l, same_structure (stairs_heap n) h /\
  finite_data h (stairs_sketch n) /\ (forall e, 0 <= e -> stairs_check n h (Fin e) = true) /\ get_loss h (stairs_sketch n) = Fin l /\ B < l.
Proof.
  intros Hn Hf HB. assert (H1 : (1 <= n)%nat) by lia. set (c := 2 * INR n * (B + 1)).
  destruct (stairs_place n (fun i => if Nat.eqb i (n - 1) then stair_x i + c else stair_x i) stair_y H1 Hf) as (h & S & FD & P).
  pose proof (get_loss_R h _ (stairs_finite n H1 Hf h S FD)) as El. set (l := sumR _) in El. exists h, l. do 2 (split; [auto|]). split; [|split; [auto|]].
  - intros e He. apply (stairs_check_R n H1 Hf h S FD). intros i Hi. unfold ex, ey. destruct (P i) as [-> ->]; [lia|].
    destruct (Nat.eqb_spec i (n - 1)); [lia|]. rewrite !Rminus_diag_eq, Rabs_R0 by reflexivity. auto.
  - pose proof (stairs_error n H1 Hf h S FD l (n - 1) El ltac:(lia)) as Er. unfold ex, ey in Er. destruct (P (n - 1)%nat) as [E1 E2]; [lia|].
    rewrite E1, E2, Nat.eqb_refl in Er. replace (Datatypes.S (n - 1)) with n in Er by lia. unfold sq in Er.
    replace (stair_x (n - 1) + c - stair_x (n - 1)) with c in Er by ring. replace (stair_y (n - 1) - stair_y (n - 1)) with 0 in Er by ring.
    assert (2 <= INR n) by (change 2 with (INR 2); now apply le_INR). unfold c in Er.
    apply Rnot_le_lt. intros HL. assert (2 * INR n * l <= 2 * INR n * B) by (apply Rmult_le_compat_l; lra).
    set (N := 2 * INR n) in *. assert (4 <= N) by (unfold N; lra).
    assert (N * (B + 1) * (N * (B + 1)) >= N * (B + 1) * 4) by (apply Rle_ge, Rmult_le_compat_l; nra). nra.
Qed.

(** ** circles *)
Lemma stair_step i : sq (stair_x (S i) - stair_x i) + sq (stair_y (S i) - stair_y i) = sq (8 / 10).
Proof.
  unfold stair_x, stair_y. destruct (Nat.even i) eqn:E; [destruct (half_even i E) as [-> ->] | destruct (half_odd i E) as [-> ->]]; rewrite S_INR; unfold sq; field.
Qed.
Lemma stair_sum i : stair_x i + stair_y i = INR i * (8 / 10).
Proof.
  induction i as [|i IH]; [unfold stair_x, stair_y; simpl; ring|]. rewrite S_INR. unfold stair_x, stair_y in *.
  destruct (Nat.even i) eqn:E; [destruct (half_even i E) as [-> ->] | destruct (half_odd i E) as [-> ->]]; rewrite S_INR; lra.
Qed.
Definition refv (i j : nat) : R * R := (stair_x j - stair_x i, stair_y j - stair_y i).
Lemma refv_neq i j : i <> j -> refv i j <> (0, 0).
Proof.
  intros H E. injection E as E1 E2. pose proof (stair_sum i). pose proof (stair_sum j). assert (INR i = INR j) by lra. now apply INR_eq in H2.
Qed.
Lemma refv_tiny i j : i <> j -> tiny <= len (refv i j).
Proof.
  intros H. unfold tiny. apply Rnot_lt_le. intros L. pose proof (len_nonneg (refv i j)) as P. pose proof (len_sq (refv i j)) as Q.
  change (fst (refv i j)) with (stair_x j - stair_x i) in Q. change (snd (refv i j)) with (stair_y j - stair_y i) in Q.
  pose proof (stair_sum i). pose proof (stair_sum j). assert (D : 1 <= Rabs (INR j - INR i)).
  { destruct (Nat.lt_ge_cases i j) as [G|G].
    - apply le_INR in G. rewrite S_INR in G. rewrite Rabs_pos_eq; lra.
    - assert (G' : (S j <= i)%nat) by lia. apply le_INR in G'. rewrite S_INR in G'. rewrite Rabs_left; lra. }
  assert (E : stair_x j - stair_x i + (stair_y j - stair_y i) = (INR j - INR i) * (8 / 10)) by lra.
  set (a := stair_x j - stair_x i) in *. set (b := stair_y j - stair_y i) in *. set (d := INR j - INR i) in *.
  assert (D2 : 1 <= d * d) by (rewrite <- (Rabs_pos_eq (d * d)) by apply Rle_0_sqr; rewrite Rabs_mult; clearbody d; clear - D; nra).
  assert (H3 : (a + b) * (a + b) <= 2 * (a * a + b * b)) by (pose proof (Rle_0_sqr (a - b)); unfold Rsqr in *; lra). rewrite E in H3.
  assert (len (refv i j) * len (refv i j) <= / 1000000 * / 1000000) by (apply Rmult_le_compat; lra). lra.
Qed.
Lemma ref_pt_R i : @ref_pt xR _ i = F2 (stair_x i, stair_y i).
Proof. unfold ref_pt. now rewrite true_x_R, true_y_R. Qed.
Lemma circle_distance_R i : circle_distance i = Fin (len (refv i (S i))).
Proof. unfold circle_distance. rewrite Nat.add_1_r, !ref_pt_R, v2sub_R, v2norm_R. reflexivity. Qed.
Lemma prev_neq n i : (S i < n)%nat -> ((i + n - 1) mod n)%nat <> i.
Proof.
  intros H. destruct i as [|i].
  - rewrite Nat.mod_small by lia. lia.
  - replace (S i + n - 1)%nat with (i + 1 * n)%nat by lia. rewrite Nat.mod_add, Nat.mod_small by lia. lia.
Qed.
Lemma circle_angle_R n i : (S i < n)%nat -> circle_angle n i =
  Fin (acos (dotR (refv i (S i)) (refv i ((i + n - 1) mod n)) / (len (refv i (S i)) * len (refv i ((i + n - 1) mod n))))).
Proof.
  intros Hi. unfold circle_angle, v2angle. rewrite Nat.add_1_r, !ref_pt_R, !v2sub_R, !v2norm_R, v2dot_R. cbn [fst snd].
  fold (refv i (S i)) (refv i ((i + n - 1) mod n)). set (u := refv i (S i)). set (v := refv i ((i + n - 1) mod n)).
  assert (Lu : 0 < len u) by (apply len_pos, refv_neq; lia). assert (Lv : 0 < len v) by (apply len_pos, refv_neq; apply not_eq_sym, prev_neq; lia).
  rewrite f0_R. cbn [feq ArithR xeq]. unfold Reqb. destruct (Req_EM_T (len u) 0); [lra|]. destruct (Req_EM_T (len v) 0); [lra|]. cbn [orb].
  change (fmul (Fin (len u)) (Fin (len v))) with (Fin (len u * len v)). rewrite div_R by nra.
  pose proof (cos_bound u v Lu Lv). rewrite clamp_R, acos_R; auto.
Qed.

Section Circle.
Variable n : nat.
Hypothesis Hn : (1 <= n)%nat.
Hypothesis Hf : few (10 * n).
Local Notation s := (circle_sketch n).

Lemma circle_built pinv : run pinv init (circle_ops n) (circle_rets n) (circle_heap n : heap xR, s).
Proof.
  apply circle_run; [auto | unfold few in *; lia | |].
  - intros i _. split; reflexivity.
  - intros i Hi. rewrite circle_distance_R, circle_angle_R by auto. auto.
Qed.
Lemma circle_valid0 : valid (circle_heap n : heap xR) s.
Proof.
  apply (reachable_valid _ _ _ _ (circle_built nopinvR)). unfold circle_ops, circle_points, circle_fix.
  rewrite !app_length, (ops_length _ 2), (ops_length _ 2), (ops_length _ 6), !seq_length by reflexivity. unfold few in *. lia.
Qed.
Variable h : heap xR.
Hypothesis S : same_structure (circle_heap n) h.
Hypothesis FD : finite_data h s.

Lemma circle_valid : valid h s.
Proof. eapply valid_struct; [apply circle_valid0 | exact S]. Qed.
Lemma circle_pt i : (i < n)%nat -> p_x (getP h i) = Fin (cx (cfg_of h) i) /\ p_y (getP h i) = Fin (cy (cfg_of h) i).
Proof.
  intros Hi. assert (R : registered s (PPoint i)).
  { apply (valid_reg _ _ _ circle_valid). unfold cells, circle_sketch, points_then_lines. cbn [s_prims]. rewrite map_app, !map_map. cbn [snd].
    apply in_app_iff. left. apply in_map, in_seq. lia. }
  pose proof (FD _ R) as F. cbn [prim_data] in F. inversion_clear F as [|? ? F1 F2]. inversion_clear F2 as [|? ? F3 _].
  cbn [cx cy cfg_of]. destruct (p_x (getP h i)), (p_y (getP h i)); try discriminate; auto.
Qed.
Lemma circle_fixes i : (i < n)%nat -> getK h i = FixPoint i (true_x i) (true_y i).
Proof.
  intros Hi. destruct S as (_ & E & _). unfold getK. rewrite E. cbn [circle_heap h_cons]. unfold circle_cons.
  rewrite app_nth1 by now rewrite map_length, seq_length.
  rewrite (nth_indep _ _ (FixPoint 0%nat (true_x 0) (true_y 0))) by now rewrite map_length, seq_length.
  rewrite (map_nth (fun i => FixPoint i (true_x i) (true_y i)) _ 0%nat). now rewrite seq_nth.
Qed.
Lemma circle_cons_at i : (i < n - 1)%nat -> getK h (n + 2 * i)%nat = EuclideanDistance i (Datatypes.S i) (circle_distance i) /\
  getK h (n + 2 * i + 1)%nat = AngleBetweenPoints (Datatypes.S i) ((i + n - 1) mod n) i (circle_angle n i).
Proof.
  intros Hi. destruct S as (_ & E & _). unfold getK. rewrite E. cbn [circle_heap h_cons]. unfold circle_cons.
  rewrite !app_nth2 by (rewrite map_length, seq_length; lia). rewrite map_length, seq_length.
  replace (n + 2 * i - n)%nat with (2 * i)%nat by lia. replace (n + 2 * i + 1 - n)%nat with (2 * i + 1)%nat by lia.
  destruct (nth_pairs (fun i => EuclideanDistance i (Datatypes.S i) (circle_distance i)) (fun i => AngleBetweenPoints (Datatypes.S i) ((i + n - 1) mod n) i (circle_angle n i))
    con0 (seq 0 (n - 1)) i 0%nat) as [E1 E2]; [now rewrite seq_length|].
  rewrite E1, E2, seq_nth; auto.
Qed.
Lemma circle_kinds k : In k (s_cons s) -> (k < n)%nat \/ exists i, (i < n - 1)%nat /\ (k = n + 2 * i \/ k = n + 2 * i + 1)%nat.
Proof.
  cbn [circle_sketch s_cons]. rewrite in_seq. intros H. destruct (Nat.lt_ge_cases k n) as [G|G]; auto. right. exists ((k - n) / 2)%nat.
  pose proof (Nat.div_mod (k - n) 2). pose proof (Nat.mod_upper_bound (k - n) 2). lia.
Qed.
Lemma prev_lt i : ((i + n - 1) mod n < n)%nat.
Proof. apply Nat.mod_upper_bound. lia. Qed.
Lemma circle_finite : all_con_finite h s.
Proof.
  assert (P : forall i, (i < n)%nat -> all_finite (prim_data h (PPoint i)) = true).
  { intros i Hi. destruct (circle_pt i Hi) as [E1 E2]. cbn [prim_data]. rewrite E1, E2. reflexivity. }
  intros k Hk. apply circle_kinds in Hk as [Hk|(i & Hi & Hk)].
  - rewrite circle_fixes by auto. split; [cbn [con_new_ok]; rewrite true_x_R, true_y_R; reflexivity|]. intros d [<-|[]]. auto.
  - destruct (circle_cons_at i Hi) as [E1 E2]. pose proof (prev_lt i). destruct Hk as [-> | ->]; rewrite ?E1, ?E2; (split; [cbn [con_new_ok]|]).
    + now rewrite circle_distance_R.
    + intros d [<-|[<-|[]]]; apply P; lia.
    + rewrite circle_angle_R by lia. reflexivity.
    + intros d [<-|[<-|[<-|[]]]]; apply P; lia.
Qed.
Definition cex (i : nat) : R := cx (cfg_of h) i - stair_x i.
Definition cey (i : nat) : R := cy (cfg_of h) i - stair_y i.
Lemma in_sum_le (f : nat -> R) l i : (forall k, 0 <= f k) -> In i l -> f i <= sumR (map f l).
Proof.
  intros P. unfold sumR. induction l as [|x l IH]; [contradiction|]. cbn [map fold_right].
  assert (0 <= fold_right Rplus 0 (map f l)). { clear IH. induction l as [|y l IH]; cbn [map fold_right]; [lra|]. specialize (P y). lra. }
  intros [->|H']; [lra|]. specialize (IH H'). specialize (P x). lra.
Qed.
Lemma circle_error l i : get_loss h s = Fin l -> (i < n)%nat -> sq (cex i) + sq (cey i) <= 2 * l.
Proof.
  intros E0 Hi. rewrite get_loss_R in E0 by apply circle_finite. apply (f_equal vx) in E0. cbn [vx] in E0.
  pose proof (in_sum_le (fun k : loc => lossR (cfg_of h) h (getK h k)) (s_cons s) i) as B.
  assert (B1 := B (fun k => lossR_nonneg _ _ _)). cbn beta in B1. rewrite (circle_fixes i Hi) in B1.
  assert (E : lossR (cfg_of h) h (FixPoint i (true_x i) (true_y i)) = (sq (cex i) + sq (cey i)) / 2) by (unfold lossR, residual2; rewrite true_x_R, true_y_R; reflexivity).
  rewrite E in B1. assert (B2 : (sq (cex i) + sq (cey i)) / 2 <= l).
  { rewrite <- E0. apply B1. cbn [circle_sketch s_cons]. apply in_seq. lia. }
  lra.
Qed.
Lemma circle_zero : get_loss h s = Fin 0 <-> forall i, (i < n)%nat -> point_at h i (stair_x i) (stair_y i).
Proof.
  split.
  - intros E i Hi. pose proof (circle_error 0 i E Hi) as B. unfold sq in B. assert (E1 : cex i * cex i = 0) by nra. assert (E2 : cey i * cey i = 0) by nra.
    unfold point_at, pdata, p_data. destruct (circle_pt i Hi) as [-> ->].
    assert (cex i = 0) by (destruct (Rmult_integral _ _ E1); auto). assert (cey i = 0) by (destruct (Rmult_integral _ _ E2); auto).
    unfold cex in *. unfold cey in *. rewrite (Rminus_diag_uniq _ _ H), (Rminus_diag_uniq _ _ H0). reflexivity.
  - intros P. apply C14_zero_lemma; [apply circle_finite|].
    assert (X : forall i, (i < n)%nat -> cx (cfg_of h) i = stair_x i /\ cy (cfg_of h) i = stair_y i).
    { intros i Hi. pose proof (P i Hi) as Q. unfold point_at, pdata, p_data in Q. injection Q as Q1 Q2. cbn [cx cy cfg_of]. now rewrite Q1, Q2. }
    assert (Y : forall i j, (i < n)%nat -> (j < n)%nat -> from_to (cfg_of h) i j = refv i j).
    { intros i j Hi Hj. unfold from_to, refv. destruct (X i Hi) as [-> ->], (X j Hj) as [-> ->]. reflexivity. }
    intros k Hk. apply circle_kinds in Hk as [Hk|(i & Hi & Hk)].
    + rewrite circle_fixes by auto. cbn [satisfied]. rewrite true_x_R, true_y_R. cbn [vx]. apply X. auto.
    + destruct (circle_cons_at i Hi) as [E1 E2]. pose proof (prev_lt i) as Pl. pose proof (prev_neq n i ltac:(lia)) as Pn. destruct Hk as [-> | ->]; rewrite ?E1, ?E2; cbn [satisfied].
      * rewrite circle_distance_R, Y by lia. cbn [vx]. unfold len, refv; cbn [fst snd]. f_equal. ring.
      * rewrite !Y by lia. pose proof (refv_tiny i (Datatypes.S i) ltac:(lia)). pose proof (refv_tiny i ((i + n - 1) mod n) (not_eq_sym Pn)).
        destruct (Rlt_dec _ _); [lra|]. destruct (Rlt_dec _ _); [lra|]. unfold angleR. rewrite !Y by lia. rewrite circle_angle_R by lia. reflexivity.
Qed.
Lemma circle_check_R e : circle_check n h (Fin e) = true <-> forall i, (i < n)%nat -> Rabs (cex i) <= e /\ Rabs (cey i) <= e.
Proof.
  assert (N : forall i, (i < n)%nat -> near_ref h (Fin e) i = true <-> Rabs (cex i) <= e /\ Rabs (cey i) <= e).
  { intros i Hi. unfold near_ref. destruct (circle_pt i Hi) as [-> ->]. rewrite true_x_R, true_y_R. unfold fgt.
    change (fabs (Fin (cx (cfg_of h) i) -f Fin (stair_x i))) with (Fin (Rabs (cex i))). change (fabs (Fin (cy (cfg_of h) i) -f Fin (stair_y i))) with (Fin (Rabs (cey i))).
    rewrite negb_true_iff, orb_false_iff, !lt_false. tauto. }
  unfold circle_check. rewrite forallb_forall. split.
  - intros H i Hi. apply N; auto. apply H, in_seq. lia.
  - intros H i Hi. apply in_seq in Hi. apply N; [lia|]. apply H. lia.
Qed.
Lemma circle_check_loss l e : get_loss h s = Fin l -> 0 <= e -> 2 * l <= e * e -> circle_check n h (Fin e) = true.
Proof.
  intros E He H. apply circle_check_R. intros i Hi. pose proof (circle_error l i E Hi) as B. unfold sq in B. split; apply abs_le_sq; auto; nra.
Qed.
End Circle.
Lemma circle_gd_lemma n (h : heap xR) : (1 <= n)%nat -> few (10 * n) -> same_structure (circle_heap n) h -> finite_data h (circle_sketch n) ->
  flt (get_loss h (circle_sketch n)) (flit 1 14) = true -> circle_check n h (flit 1 6) = true.
Proof.
  intros Hn Hf S FD H. rewrite eps_1em6. pose proof (circle_finite n Hn Hf h S FD) as CF. pose proof (get_loss_R h _ CF) as El. set (l := sumR _) in El.
  rewrite El in H. cbn [flit ArithR] in H. apply lt_true in H. simpl in H.
  apply (circle_check_loss n Hn Hf h S FD l); auto; lra.
Qed.
