(** * The benchmark sketches over the real numbers *)
From Coq Require Import List ZArith NArith Arith Bool Lia Reals Lra.
From Verif Require Import Arith Vec Prim Cons Sketch Solve Api Spec SolverSpec ArithR ExactSpec LinearSpec Bench BenchSpec
  HeapLemmas SolveLemmas WfLemmas DataLemmas BookLemmas SpecLemmas ExactLemmas GradLemmas LossLemmas RMat SearchLemmas StepLemmas
  ExactRun SolverForms SymLemmas LinearLemmas LinearForms BuildLemmas.
Import ListNotations.
Local Open Scope R_scope.

(** ** chains of residuals *)
Fixpoint chain (e : nat -> R) (m : nat) : R :=
  match m with O => sq (e O) | S m => chain e m + sq (e (S m) - e m) end.
Lemma chain_pos e m : 0 <= chain e m.
Proof. induction m; simpl; unfold sq in *; [nra|]. pose proof (Rle_0_sqr (e (S m) - e m)). unfold Rsqr in *. lra. Qed.
Lemma chain_mono e i m : (i <= m)%nat -> chain e i <= chain e m.
Proof. induction 1; [lra|]. simpl. unfold sq. pose proof (Rle_0_sqr (e (S m) - e m)). unfold Rsqr in *. lra. Qed.
Lemma chain_bound e m : sq (e m) <= INR (S m) * chain e m.
Proof.
  induction m as [|m IH]; [simpl; lra|]. cbn [chain]. set (c := chain e m) in *. set (a := e m) in *.
  replace (e (S m)) with (a + (e (S m) - a)) at 1 by ring. set (b := e (S m) - a).
  rewrite !S_INR in *. pose proof (pos_INR m) as P. set (k := INR m) in *.
  assert (H : 2 * a * b * (k + 1) <= sq a + (k + 1) * (k + 1) * sq b).
  { unfold sq. pose proof (Rle_0_sqr (a - (k + 1) * b)). unfold Rsqr in *. lra. }
  apply Rmult_le_reg_r with (k + 1); [lra|]. unfold sq in *. 
  assert ((k + 1 + 1) * (a * a) <= (k + 1 + 1) * ((k + 1) * c)) by (apply Rmult_le_compat_l; lra). lra.
Qed.
Lemma chain_bound_le e i m : (i <= m)%nat -> sq (e i) <= INR (S i) * chain e m.
Proof.
  intros H. eapply Rle_trans; [apply chain_bound|]. apply Rmult_le_compat_l; [apply pos_INR | now apply chain_mono].
Qed.
Lemma chain_zero e m : chain e m = 0 -> forall i, (i <= m)%nat -> e i = 0.
Proof.
  intros H i Hi. pose proof (chain_bound_le e i m Hi) as B. rewrite H, Rmult_0_r in B. unfold sq in B.
  assert (e i * e i = 0) by nra. destruct (Rmult_integral _ _ H0); auto.
Qed.
Lemma chain_of_zero e m : (forall i, (i <= m)%nat -> e i = 0) -> chain e m = 0.
Proof.
  induction m as [|m IH]; intros H; cbn [chain]; unfold sq; [rewrite H by lia; ring|].
  rewrite IH, !H by (try intros; try apply H; lia). ring.
Qed.

Lemma sumR_app u v : sumR (u ++ v) = sumR u + sumR v.
Proof. unfold sumR. induction u as [|x u IH]; cbn [app fold_right]; [ring|]. rewrite IH. ring. Qed.
Lemma sum_pairs (f : nat -> R) m : sumR (map f (seq 0 (S (2 * m)))) = f 0%nat + sumR (map (fun i => f (2 * i + 1)%nat + f (2 * i + 2)%nat) (seq 0 m)).
Proof.
  induction m as [|m IH]; [simpl; ring|].
  assert (E1 : seq 0 (S (2 * S m)) = seq 0 (S (2 * m)) ++ [2 * m + 1; 2 * m + 2]%nat).
  { replace (S (2 * S m)) with (S (2 * m) + 2)%nat by lia. rewrite seq_app. f_equal. cbn [seq Nat.add]. do 2 f_equal; [lia|]. f_equal; lia. }
  assert (E2 : seq 0 (S m) = seq 0 m ++ [m]) by apply seq_S.
  rewrite E1, E2, !map_app, !sumR_app, IH. unfold sumR. cbn [map fold_right]. ring.
Qed.
Lemma nth_pairs {S T} (f g : S -> T) d l : forall i s0, (i < length l)%nat ->
  nth (2 * i) (flat_map (fun x => [f x; g x]) l) d = f (nth i l s0) /\ nth (2 * i + 1) (flat_map (fun x => [f x; g x]) l) d = g (nth i l s0).
Proof.
  induction l as [|x l IH]; intros i s0 Hi; simpl in Hi; [lia|]. destruct i as [|i]; [split; reflexivity|].
  replace (2 * Datatypes.S i)%nat with (Datatypes.S (Datatypes.S (2 * i))) by lia. cbn [flat_map app nth Nat.add]. apply IH. lia.
Qed.

(** ** stair positions *)
Lemma true_x_R i : true_x i = Fin (stair_x i).
Proof.
  unfold true_x, fnat, lit_08, stair_x. cbn [fmul flit ArithR xmul]. f_equal. rewrite <- INR_IZR_INZ. simpl. lra.
Qed.
Lemma true_y_R i : true_y i = Fin (stair_y i).
Proof.
  unfold true_y, fnat, lit_08, stair_y. cbn [fmul flit ArithR xmul]. f_equal. rewrite <- INR_IZR_INZ. simpl. lra.
Qed.
Lemma half_even i : Nat.even i = true -> ((S i + 1) / 2 = S ((i + 1) / 2) /\ S i / 2 = i / 2)%nat.
Proof.
  intros H. apply Nat.even_spec in H as [k ->]. replace (S (2 * k) + 1)%nat with (S k * 2)%nat by lia. replace (S (2 * k))%nat with (1 + k * 2)%nat by lia.
  replace (2 * k + 1)%nat with (1 + k * 2)%nat by lia. replace (2 * k)%nat with (k * 2)%nat by lia. now rewrite !Nat.div_add, !Nat.div_mul by lia.
Qed.
Lemma half_odd i : Nat.even i = false -> ((S i + 1) / 2 = (i + 1) / 2 /\ S i / 2 = S (i / 2))%nat.
Proof.
  intros H. assert (O : Nat.odd i = true) by (unfold Nat.odd; now rewrite H). apply Nat.odd_spec in O as [k ->].
  replace (S (2 * k + 1) + 1)%nat with (1 + S k * 2)%nat by lia. replace (S (2 * k + 1))%nat with (S k * 2)%nat by lia.
  replace (2 * k + 1 + 1)%nat with (S k * 2)%nat by lia. replace (2 * k + 1)%nat with (1 + k * 2)%nat by lia. now rewrite !Nat.div_add, !Nat.div_mul by lia.
Qed.

Lemma ops_length {S T} (f : S -> list T) k l : (forall x, length (f x) = k) -> length (flat_map f l) = (k * length l)%nat.
Proof. intros H. induction l; simpl; [lia|]. rewrite app_length, H, IHl. lia. Qed.

Lemma chain_sum e m : chain e m = sq (e 0%nat) + sumR (map (fun i => sq (e (Datatypes.S i) - e i)) (seq 0 m)).
Proof.
  induction m as [|m IH]; [simpl; ring|]. assert (E : seq 0 (Datatypes.S m) = seq 0 m ++ [m]) by apply seq_S.
  rewrite E, map_app, sumR_app. cbn [chain]. rewrite IH. unfold sumR; cbn [map fold_right]. ring.
Qed.
Lemma sumR_ext (f g : nat -> R) l : (forall i, In i l -> f i = g i) -> sumR (map f l) = sumR (map g l).
Proof. intros H. f_equal. apply map_ext_in. auto. Qed.
Lemma sumR_lin (f g : nat -> R) a l : sumR (map (fun i => a * (f i + g i)) l) = a * (sumR (map f l) + sumR (map g l)).
Proof. unfold sumR. induction l as [|x l IH]; cbn [map fold_right]; [ring|]. rewrite IH. ring. Qed.
Lemma abs_le_sq a e : 0 <= e -> a * a <= e * e -> Rabs a <= e.
Proof. intros He H. apply Rsqr_le_abs_0 in H. rewrite (Rabs_pos_eq e) in H by auto. auto. Qed.
(** ** the stairs *)
Section Stairs.
Variable n : nat.
Hypothesis Hn : (1 <= n)%nat.
Hypothesis Hf : few (8 * n).
Local Notation s := (stairs_sketch n).

Definition nopinvR : mat xR -> xR -> pinv_res (mat xR) := fun _ _ => PErr.
Lemma stairs_len : (length (@stairs_ops xR _ n) <= 8 * n)%nat.
Proof.
  unfold stairs_ops, stairs_points, stairs_fix. rewrite !app_length, (ops_length _ 2), (ops_length _ 6) by (intros; unfold stairs_step; try destruct (Nat.even _); reflexivity).
  rewrite !seq_length. simpl length. lia.
Qed.
Lemma stairs_built : run nopinvR init (stairs_ops n) (stairs_rets n) (stairs_heap n, s).
Proof. apply stairs_run; auto. unfold few in *. lia. Qed.
Lemma stairs_valid0 : valid (stairs_heap n : heap xR) s.
Proof. apply (reachable_valid _ _ _ _ stairs_built). pose proof stairs_len. unfold few in *. lia. Qed.

Variable h : heap xR.
Hypothesis S : same_structure (stairs_heap n) h.
Hypothesis FD : finite_data h s.

Lemma stairs_valid : valid h s.
Proof. eapply valid_struct; [apply stairs_valid0 | exact S]. Qed.
Lemma stairs_reg i : (i < n)%nat -> registered s (PPoint i).
Proof.
  intros Hi. apply (valid_reg _ _ _ stairs_valid). unfold cells, stairs_sketch, points_then_lines. cbn [s_prims]. rewrite map_app, !map_map. cbn [snd].
  apply in_app_iff. left. apply in_map, in_seq. lia.
Qed.
Lemma stairs_pt i : (i < n)%nat -> p_x (getP h i) = Fin (cx (cfg_of h) i) /\ p_y (getP h i) = Fin (cy (cfg_of h) i).
Proof.
  intros Hi. pose proof (FD _ (stairs_reg i Hi)) as F. cbn [prim_data] in F. inversion_clear F as [|? ? F1 F2]. inversion_clear F2 as [|? ? F3 _].
  cbn [cx cy cfg_of]. destruct (p_x (getP h i)), (p_y (getP h i)); try discriminate; auto.
Qed.
Lemma stairs_con i : (i < n - 1)%nat -> getK h (2 * i + 1)%nat = stairs_c i /\ getK h (2 * i + 2)%nat = stairs_d i.
Proof.
  intros Hi. destruct S as (_ & E & _). unfold getK. rewrite E. cbn [stairs_heap h_cons]. rewrite stairs_cons_eq.
  replace (2 * i + 1)%nat with (Datatypes.S (2 * i)) by lia. replace (2 * i + 2)%nat with (Datatypes.S (2 * i + 1)) by lia. cbn [nth].
  destruct (nth_pairs stairs_c stairs_d con0 (seq 0 (n - 1)) i 0%nat) as [E1 E2]; [now rewrite seq_length|].
  rewrite E1, E2, seq_nth; auto.
Qed.
Lemma stairs_con0 : getK h 0%nat = FixPoint 0%nat f0 f0.
Proof. destruct S as (_ & E & _). unfold getK. rewrite E. reflexivity. Qed.
Lemma stairs_line i : (i < n - 1)%nat -> getL h i = mkLine i (Datatypes.S i).
Proof.
  intros Hi. destruct S as (E & _). unfold getL. rewrite E. cbn [stairs_heap h_lines]. unfold polyline.
  rewrite (nth_indep _ _ (mkLine 0%nat 1%nat)) by now rewrite map_length, seq_length.
  rewrite (map_nth (fun i => mkLine i (Datatypes.S i)) _ 0%nat). now rewrite seq_nth.
Qed.
Lemma stairs_kinds k : In k (s_cons s) -> k = 0%nat \/ exists i, (i < n - 1)%nat /\ (k = 2 * i + 1 \/ k = 2 * i + 2)%nat.
Proof.
  cbn [stairs_sketch s_cons]. rewrite in_seq. intros H. destruct k as [|k]; auto. right. exists (k / 2)%nat.
  pose proof (Nat.div_mod k 2). pose proof (Nat.mod_upper_bound k 2). lia.
Qed.
Lemma stairs_finite : all_con_finite h s.
Proof.
  assert (P : forall i, (i < n)%nat -> all_finite (prim_data h (PPoint i)) = true).
  { intros i Hi. destruct (stairs_pt i Hi) as [E1 E2]. cbn [prim_data]. rewrite E1, E2. reflexivity. }
  intros k Hk. apply stairs_kinds in Hk as [->|(i & Hi & Hk)].
  - rewrite stairs_con0. split; [reflexivity|]. intros d [<-|[]]. apply P. lia.
  - destruct (stairs_con i Hi) as [E1 E2]. assert (G : getK h k = stairs_c i \/ getK h k = stairs_d i) by (destruct Hk as [->| ->]; auto).
    unfold stairs_c, stairs_d in G.
    destruct (Nat.even i); destruct G as [-> | ->]; (split; [reflexivity|]); intros d; unfold deps; cbn [con_refs flat_map prim_refs app]; try rewrite stairs_line by auto;
      cbn [l_start l_end In]; intros H; repeat (destruct H as [<-|H]; [first [apply P; lia | reflexivity]|]); destruct H.
Qed.
Lemma stairs_linear : linear_sketch h s.
Proof.
  intros k Hk. apply stairs_kinds in Hk as [->|(i & Hi & Hk)]; [now rewrite stairs_con0|].
  destruct (stairs_con i Hi) as [E1 E2]. unfold stairs_c, stairs_d in *. destruct Hk as [-> | ->]; rewrite ?E1, ?E2; destruct (Nat.even i); reflexivity.
Qed.
Definition ex (i : nat) : R := cx (cfg_of h) i - stair_x i.
Definition ey (i : nat) : R := cy (cfg_of h) i - stair_y i.
Lemma stairs_pair i : (i < n - 1)%nat ->
  lossR (cfg_of h) h (getK h (2 * i + 1)%nat) + lossR (cfg_of h) h (getK h (2 * i + 2)%nat) =
  / 2 * (sq (ex (Datatypes.S i) - ex i) + sq (ey (Datatypes.S i) - ey i)).
Proof.
  intros Hi. destruct (stairs_con i Hi) as [-> ->]. unfold ex, ey, stair_x, stair_y, stairs_c, stairs_d. 
  destruct (Nat.even i) eqn:E; [destruct (half_even i E) as [-> ->] | destruct (half_odd i E) as [-> ->]]; rewrite S_INR;
    unfold lossR, residual2, dirR; rewrite stairs_line by auto; cbn [l_start l_end from_to fst snd]; unfold lit_08; cbn [flit ArithR vx];
    unfold sq; simpl pow; field.
Qed.
Lemma stairs_loss : get_loss h s = Fin (/ 2 * (chain ex (n - 1) + chain ey (n - 1))).
Proof.
  rewrite get_loss_R by apply stairs_finite. f_equal. cbn [stairs_sketch s_cons]. rewrite sum_pairs, !chain_sum.
  rewrite (sumR_ext _ (fun i => / 2 * (sq (ex (Datatypes.S i) - ex i) + sq (ey (Datatypes.S i) - ey i)))).
  2:{ intros i Hi. apply in_seq in Hi. apply stairs_pair. lia. }
  assert (E1 : ex 0 = cx (cfg_of h) 0%nat) by (unfold ex, stair_x; change (INR ((0 + 1) / 2)) with 0; ring).
  assert (E2 : ey 0 = cy (cfg_of h) 0%nat) by (unfold ey, stair_y; change (INR (0 / 2)) with 0; ring).
  rewrite sumR_lin, stairs_con0. unfold lossR, residual2. rewrite f0_R. cbn [vx]. rewrite E1, E2. unfold sq. field.
Qed.
Lemma stairs_error l i : get_loss h s = Fin l -> (i < n)%nat -> sq (ex i) + sq (ey i) <= 2 * INR (Datatypes.S i) * l.
Proof.
  intros E Hi. rewrite stairs_loss in E. injection E as <-.
  pose proof (chain_bound_le ex i (n - 1)) as B1. pose proof (chain_bound_le ey i (n - 1)) as B2.
  assert (i <= n - 1)%nat by lia. specialize (B1 H). specialize (B2 H). lra.
Qed.
Lemma stairs_zero : get_loss h s = Fin 0 <-> forall i, (i < n)%nat -> point_at h i (stair_x i) (stair_y i).
Proof.
  rewrite stairs_loss. pose proof (chain_pos ex (n - 1)). pose proof (chain_pos ey (n - 1)). split.
  - intros E. injection E as E. assert (E1 : chain ex (n - 1) = 0) by lra. assert (E2 : chain ey (n - 1) = 0) by lra.
    intros i Hi. pose proof (chain_zero _ _ E1 i) as Z1. pose proof (chain_zero _ _ E2 i) as Z2. unfold ex in Z1. unfold ey in Z2.
    unfold point_at, pdata, p_data. destruct (stairs_pt i Hi) as [-> ->]. rewrite (Rminus_diag_uniq _ _ (Z1 ltac:(lia))), (Rminus_diag_uniq _ _ (Z2 ltac:(lia))). reflexivity.
  - intros P. rewrite !chain_of_zero; [f_equal; ring| |]; intros i Hi; pose proof (P i ltac:(lia)) as Q; unfold point_at, pdata, p_data in Q;
      injection Q as Q1 Q2; unfold ex, ey; cbn [cx cy cfg_of]; rewrite ?Q1, ?Q2; cbn [vx]; ring.
Qed.
Lemma near_ref_R i e : (i < n)%nat -> near_ref h (Fin e) i = true <-> Rabs (ex i) <= e /\ Rabs (ey i) <= e.
Proof.
  intros Hi. unfold near_ref. destruct (stairs_pt i Hi) as [-> ->]. rewrite true_x_R, true_y_R. unfold fgt.
  change (fabs (Fin (cx (cfg_of h) i) -f Fin (stair_x i))) with (Fin (Rabs (ex i))). change (fabs (Fin (cy (cfg_of h) i) -f Fin (stair_y i))) with (Fin (Rabs (ey i))).
  rewrite negb_true_iff, orb_false_iff, !lt_false. tauto.
Qed.
Lemma stairs_check_R e : stairs_check n h (Fin e) = true <-> forall i, (i < n - 1)%nat -> Rabs (ex i) <= e /\ Rabs (ey i) <= e.
Proof.
  unfold stairs_check. rewrite forallb_forall. split.
  - intros H i Hi. apply near_ref_R; [lia|]. apply H, in_seq. lia.
  - intros H i Hi. apply in_seq in Hi. apply near_ref_R; [lia|]. apply H. lia.
Qed.
Lemma stairs_check_loss l e : get_loss h s = Fin l -> 0 <= e -> 2 * INR (n - 1) * l <= e * e -> stairs_check n h (Fin e) = true.
Proof.
  intros E He H. apply stairs_check_R. intros i Hi. pose proof (stairs_error l i E ltac:(lia)) as B.
  pose proof (loss_pos _ _ _ stairs_finite E) as Hl.
  assert (INR (Datatypes.S i) <= INR (n - 1)) by (apply le_INR; lia).
  assert (2 * INR (Datatypes.S i) * l <= 2 * INR (n - 1) * l) by (apply Rmult_le_compat_r; lra).
  unfold sq in B. split; apply abs_le_sq; auto; nra.
Qed.
End Stairs.

(** ** gradient and loss of the stairs *)
Definition stair_list (n : nat) : list R := flat_map (fun i => [stair_x i; stair_y i]) (seq 0 n).
Lemma sum_le (f g : nat -> R) l : (forall i, In i l -> f i <= g i) -> sumR (map f l) <= sumR (map g l).
Proof.
  unfold sumR. induction l as [|x l IH]; intros H; cbn [map fold_right]; [lra|].
  pose proof (H x (or_introl eq_refl)). specialize (IH (fun i Hi => H i (or_intror Hi))). lra.
Qed.
Lemma sum_S n c : sumR (map (fun i => 2 * INR (S i) * c) (seq 0 n)) = INR n * INR (S n) * c.
Proof.
  induction n as [|n IH]; [simpl; ring|]. assert (E : seq 0 (S n) = seq 0 n ++ [n]) by apply seq_S.
  rewrite E, map_app, sumR_app, IH. unfold sumR. cbn [map fold_right]. rewrite !S_INR. ring.
Qed.
Lemma dist2_pairs (f g f' g' : nat -> R) l : dist2 (flat_map (fun i => [f i; g i]) l) (flat_map (fun i => [f' i; g' i]) l) =
  sumR (map (fun i => sq (f i - f' i) + sq (g i - g' i)) l).
Proof. unfold dist2, sumR. induction l as [|x l IH]; [reflexivity|]. cbn [flat_map app map2 map fold_right]. rewrite IH. ring. Qed.
Lemma amax_in v x : In x v -> Rabs x <= amax v.
Proof. induction v as [|y v IH]; simpl; [contradiction|]. intros [->|H]; [apply Rmax_l | eapply Rle_trans; [now apply IH | apply Rmax_r]]. Qed.
Lemma dotL_amax v : dotL v v <= INR (length v) * (amax v * amax v).
Proof.
  assert (G : forall a, (forall x, In x v -> Rabs x <= a) -> dotL v v <= INR (length v) * (a * a)).
  { unfold dotL, sumR. induction v as [|x v IH]; intros a Ha; [simpl; lra|]. cbn [map2 fold_right length]. rewrite S_INR.
    specialize (IH a (fun y Hy => Ha y (or_intror Hy))). pose proof (Ha x (or_introl eq_refl)) as Hx. pose proof (Rabs_pos x).
    assert (x * x = Rabs x * Rabs x) by (rewrite <- Rabs_mult; symmetry; apply Rabs_pos_eq; nra). nra. }
  apply G, amax_in.
Qed.

Lemma stairs_data n (Hn : (1 <= n)%nat) (Hf : few (8 * n)) h (S : same_structure (stairs_heap n) h) (FD : finite_data h (stairs_sketch n)) : get_data h (stairs_sketch n) = map Fin (flat_map (fun i => [cx (cfg_of h) i; cy (cfg_of h) i]) (seq 0 n)).
Proof.
  unfold get_data, stairs_sketch, points_then_lines, cells. cbn [s_prims]. rewrite map_app, !map_map, flat_map_app. cbn [snd].
  assert (L : forall l, flat_map (prim_data h) (map (fun x => PLine x) l) = []) by (induction l; simpl; auto).
  rewrite L, app_nil_r. assert (P := stairs_pt n Hn Hf h S FD).
  assert (G : forall l, (forall i, In i l -> (i < n)%nat) -> flat_map (prim_data h) (map (fun x => PPoint x) l) =
    map Fin (flat_map (fun i => [cx (cfg_of h) i; cy (cfg_of h) i]) l)).
  { induction l as [|i l IH]; intros Hl; [reflexivity|]. cbn [map flat_map prim_data app]. destruct (P i (Hl i (or_introl eq_refl))) as [-> ->].
    rewrite IH by (intros; apply Hl; now right). reflexivity. }
  apply G. intros i Hi. apply in_seq in Hi. lia.
Qed.

Section Grad.
Variable n : nat.
Hypothesis Hn : (1 <= n)%nat.
Hypothesis Hf : few (8 * n).
Local Notation s := (stairs_sketch n).
Variable h : heap xR.
Hypothesis S : same_structure (stairs_heap n) h.
Hypothesis FD : finite_data h s.

Lemma stair_length : length (stair_list n) = get_n_dofs h s.
Proof. rewrite <- data_length, (stairs_data n Hn Hf h S FD), map_length. unfold stair_list. now rewrite !len2. Qed.
Lemma stairs_solution : exists hx, at_point h s (map Fin (stair_list n)) hx /\ all_satisfied hx s.
Proof.
  pose proof (stairs_valid n Hn Hf h S) as V.
  destruct (set_data_ok s (map Fin (stair_list n)) h) as [hx E]; [rewrite map_length; apply stair_length | apply finite_FinV |].
  exists hx. assert (Fr : frame s h hx) by (eapply set_frame, E). assert (G := C09_set_get _ _ _ _ V E).
  split; [apply at_frame; auto|].
  assert (Sx : same_structure (stairs_heap n) hx) by (eapply (pre_trans _ struct_pre); [exact S | apply Fr]).
  assert (Fx : finite_data hx s) by (apply (finite_iff _ _ (valid_keys _ _ V)); rewrite G; apply finite_FinV).
  assert (CF := stairs_finite n Hn Hf hx Sx Fx). intros k Hk. apply (proj1 (C14_zero_lemma hx s CF)); auto.
  apply (stairs_zero n Hn Hf hx Sx Fx). intros i Hi. pose proof (stairs_pt n Hn Hf hx Sx Fx i Hi) as [E1 E2].
  unfold point_at, pdata, p_data. rewrite E1, E2.
  rewrite (stairs_data n Hn Hf hx Sx Fx) in G. apply (f_equal (map vx)) in G. rewrite !map_vx_Fin in G. unfold stair_list in G.
  destruct (nth_pairs (cx (cfg_of hx)) (cy (cfg_of hx)) 0 (seq 0 n) i 0%nat) as [N1 N2]; [now rewrite seq_length|].
  destruct (nth_pairs stair_x stair_y 0 (seq 0 n) i 0%nat) as [N3 N4]; [now rewrite seq_length|].
  rewrite G, seq_nth in N1, N2 by auto. rewrite N3, seq_nth in N1 by auto. rewrite N4, seq_nth in N2 by auto. cbn [Nat.add] in *. now rewrite <- N1, <- N2.
Qed.
Lemma stairs_grad_loss h1 g l : get_gradient s h = (h1, Val (map Fin g)) -> get_loss h s = Fin l ->
  4 * l <= INR n * INR (Datatypes.S n) * dotL g g.
Proof.
  intros Eg El. pose proof (stairs_valid n Hn Hf h S) as V. pose proof (stairs_finite n Hn Hf h S FD) as CF.
  destruct stairs_solution as (hx & Hx & Sat).
  pose proof (C69_gap_lemma h s h1 g _ hx V FD CF (stairs_linear n Hn h S) Eg Hx Sat) as Gap. rewrite El in Gap. injection Gap as Gap.
  set (dl := minusL (map vx (get_data h s)) (stair_list n)) in *.
  assert (Lg : length g = get_n_dofs h s) by (apply gradient_val in Eg as [_ Lg]; now rewrite map_length in Lg).
  assert (Ld : length dl = length g).
  { unfold dl. rewrite minusL_length; rewrite map_length, data_length; [auto | symmetry; apply stair_length]. }
  assert (D : dotL dl dl <= INR n * INR (Datatypes.S n) * l).
  { unfold dl. rewrite <- dist2_dot, (stairs_data n Hn Hf h S FD), map_vx_Fin. unfold stair_list. rewrite dist2_pairs, <- sum_S.
    apply sum_le. intros i Hi. apply in_seq in Hi. apply (stairs_error n Hn Hf h S FD l i El). lia. }
  pose proof (dotL_cauchy g dl (eq_sym Ld)) as C. pose proof (loss_pos _ _ _ CF El) as Pl. pose proof (dotL_sq_nonneg g) as Pg.
  pose proof (pos_INR n). pose proof (pos_INR (Datatypes.S n)). set (N := INR n * INR (Datatypes.S n)) in *.
  assert (0 <= N) by (unfold N; nra).
  destruct (Req_dec l 0) as [->|Nl]; [nra|].
  assert (dotL g dl = 2 * l) by lra. rewrite H2 in C.
  assert (C2 : 4 * l * l <= N * dotL g g * l) by nra. apply Rmult_le_reg_r with l; lra.
Qed.
Lemma stairs_check_gradient h1 g e : get_gradient s h = (h1, Val (map Fin g)) -> 0 <= e ->
  INR (n - 1) * (INR n * INR (Datatypes.S n)) * dotL g g <= 2 * (e * e) -> stairs_check n h (Fin e) = true.
Proof.
  intros Eg He H. pose proof (stairs_finite n Hn Hf h S FD) as CF. pose proof (get_loss_R h s CF) as El.
  eapply (stairs_check_loss n Hn Hf h S FD); [exact El | auto |]. pose proof (stairs_grad_loss h1 g _ Eg El) as B.
  pose proof (pos_INR (n - 1)) as P. nra.
Qed.
End Grad.

(** ** solving the stairs *)
Lemma stairs_kept pinv sol n (h : heap xR) : same_structure (stairs_heap n) h -> same_structure (stairs_heap n) (fst (solve pinv sol (stairs_sketch n) h)).
Proof. intros S. eapply (pre_trans _ struct_pre); [exact S | apply (solve_frame pinv sol (stairs_sketch n) h)]. Qed.
Lemma gd_run_kept s P (h h' : heap xR) r : valid h s -> finite_data h s -> gd_run s P h = (h', r) -> frame s h h' /\ finite_data h' s.
Proof.
  intros V FD E. assert (E' : fst (solve nopinvR (GradientBased P) s h) = h') by (cbn [solve]; unfold mbind; rewrite E; destruct r; reflexivity).
  rewrite <- E'. split; [apply solve_frame | now apply C32_lemma].
Qed.
Lemma bfgs_run_kept s P (h h' : heap xR) r : valid h s -> finite_data h s -> bfgs_run s P h = (h', r) -> frame s h h' /\ finite_data h' s.
Proof.
  intros V FD E. assert (E' : fst (solve nopinvR (BFGS P) s h) = h') by (cbn [solve]; unfold mbind; rewrite E; destruct r; reflexivity).
  rewrite <- E'. split; [apply solve_frame | now apply C32_lemma].
Qed.
Lemma eps_1em6 : flit 1 6 = Fin (/ 1000000).
Proof. cbn [flit ArithR]. f_equal. simpl. field. Qed.
Lemma stairs_gd_lemma n (h h' : heap xR) k : (1 <= n <= 51)%nat -> same_structure (stairs_heap n) h -> finite_data h (stairs_sketch n) ->
  gd_run (stairs_sketch n) gd_default h = (h', Val (SOk k)) -> (N.of_nat k < 10000)%N -> stairs_check n h' (flit 1 6) = true.
Proof.
  intros [Hn Hm] S FD E Hk. assert (Hf : few (8 * n)) by (unfold few; lia).
  pose proof (stairs_valid n Hn Hf h S) as V. destruct (gd_run_kept _ _ _ _ _ V FD E) as [Fr FD'].
  assert (S' : same_structure (stairs_heap n) h') by (eapply (pre_trans _ struct_pre); [exact S | apply Fr]).
  rewrite eps_1em6. apply C22_gd_lemma in E; auto.
  pose proof (stairs_finite n Hn Hf h' S' FD') as CF. pose proof (get_loss_R h' _ CF) as El. set (l := sumR _) in El.
  assert (In50 : INR (n - 1) <= 50) by (change 50 with (IZR (Z.of_nat 50)); rewrite <- INR_IZR_INZ; apply le_INR; lia).
  assert (In51 : INR n <= 51) by (change 51 with (IZR (Z.of_nat 51)); rewrite <- INR_IZR_INZ; apply le_INR; lia).
  pose proof (pos_INR (n - 1)) as P1. pose proof (pos_INR n) as P2.
  destruct E as [E|[(g & Eg & E)|E]].
  - rewrite El in E. unfold gd_default in E; cbn [gd_min_loss flit ArithR] in E. apply lt_true in E.
    apply (stairs_check_loss n Hn Hf h' S' FD' l); auto; [lra|]. pose proof (loss_pos _ _ _ CF El). simpl in E. nra.
  - destruct (get_gradient (stairs_sketch n) h') as [h1 o] eqn:Eg'. cbn [snd] in Eg. subst o.
    destruct (ok_grad (stairs_sketch n) h' h' h1 g Eg') as (gr & -> & _). rewrite vnorm_R in E.
    unfold gd_default in E; cbn [gd_min_grad flit ArithR] in E. apply lt_true in E.
    apply (stairs_check_gradient n Hn Hf h' S' FD' h1 gr); auto; [lra|].
    pose proof (dotL_sq_nonneg gr) as Pg. pose proof (sqrt_sqrt _ Pg) as Q. pose proof (sqrt_pos (dotL gr gr)) as Qp. set (q := sqrt (dotL gr gr)) in *.
    simpl in E. assert (q * q <= / 10000000000 * / 10000000000) by nra. rewrite <- Q, S_INR.
    assert (INR (n - 1) * (INR n * (INR n + 1)) <= 50 * (51 * 52)) by (apply Rmult_le_compat; nra).
    assert (0 <= INR (n - 1) * (INR n * (INR n + 1))) by nra. nra.
  - exfalso. unfold gd_default in E; cbn [gd_max] in E. lia.
Qed.
