(** * How far a solver that reports success may still be from the stairs *)
From Coq Require Import List ZArith NArith Arith Bool Lia Reals Lra.
From Verif Require Import Arith Vec Prim Cons Sketch Solve Api Spec SolverSpec ArithR ExactSpec LinearSpec Bench BenchSpec
  HeapLemmas SolveLemmas WfLemmas DataLemmas BookLemmas SpecLemmas ExactLemmas GradLemmas LossLemmas RMat SearchLemmas StepLemmas
  ExactRun SolverForms SymLemmas LinearLemmas LinearForms BuildLemmas BenchLemmas CircleLemmas RectLemmas.
Import ListNotations.
Local Open Scope R_scope.

(** ** lists of pairs *)
Definition pairs (f g : nat -> R) (n : nat) : list R := flat_map (fun i => [f i; g i]) (seq 0 n).
Lemma pairs_length f g n : length (pairs f g n) = (2 * n)%nat.
Proof. unfold pairs. now rewrite len2, seq_length. Qed.
Lemma pairs_map2 (op : R -> R -> R) f g f' g' l : map2 op (flat_map (fun i : nat => [f i; g i]) l) (flat_map (fun i => [f' i; g' i]) l) =
  flat_map (fun i => [op (f i) (f' i); op (g i) (g' i)]) l.
Proof. induction l as [|x l IH]; [reflexivity|]. cbn [flat_map app map2]. now rewrite IH. Qed.
Lemma pairs_nth f g n i : (i < n)%nat -> nth (2 * i) (pairs f g n) 0 = f i /\ nth (2 * i + 1) (pairs f g n) 0 = g i.
Proof.
  intros Hi. destruct (nth_pairs f g 0 (seq 0 n) i 0%nat) as [E1 E2]; [now rewrite seq_length|]. rewrite seq_nth in E1, E2 by auto. auto.
Qed.
Lemma pairs_of v n : length v = (2 * n)%nat -> v = pairs (fun i => nth (2 * i) v 0) (fun i => nth (2 * i + 1) v 0) n.
Proof.
  intros L. apply (nth_ext _ _ 0 0); [now rewrite pairs_length|]. intros k Hk. rewrite L in Hk.
  destruct (Nat.even k) eqn:E.
  - apply Nat.even_spec in E as [i ->]. symmetry. apply (pairs_nth (fun i => nth (2 * i) v 0) (fun i => nth (2 * i + 1) v 0) n i). lia.
  - assert (O : Nat.odd k = true) by (unfold Nat.odd; now rewrite E). apply Nat.odd_spec in O as [i ->]. symmetry. apply (pairs_nth (fun i => nth (2 * i) v 0) (fun i => nth (2 * i + 1) v 0) n i). lia.
Qed.
Lemma pairs_inj f g f' g' n : pairs f g n = pairs f' g' n -> forall i, (i < n)%nat -> f i = f' i /\ g i = g' i.
Proof.
  intros E i Hi. destruct (pairs_nth f g n i Hi) as [E1 E2]. destruct (pairs_nth f' g' n i Hi) as [E3 E4]. rewrite E in E1, E2. rewrite <- E1, <- E2. auto.
Qed.
Lemma dotL_pairs f g f' g' n : dotL (pairs f g n) (pairs f' g' n) = sumR (map (fun i => f i * f' i + g i * g' i) (seq 0 n)).
Proof.
  unfold dotL, pairs. rewrite pairs_map2. induction (seq 0 n) as [|x l IH]; [reflexivity|]. unfold sumR in *. cbn [flat_map app map fold_right]. rewrite IH. ring.
Qed.
Lemma dotL_abs u : forall v, Rabs (dotL u v) <= amax u * sumR (map Rabs v).
Proof.
  assert (G : forall u v a, 0 <= a -> (forall x, In x u -> Rabs x <= a) -> Rabs (dotL u v) <= a * sumR (map Rabs v)).
  { clear. unfold dotL, sumR. induction u as [|x u IH]; intros v a Pa Ha.
    - cbn [map2 fold_right]. rewrite Rabs_R0. apply Rmult_le_pos; auto. induction v as [|y v IHv]; cbn [map fold_right]; [lra|]. pose proof (Rabs_pos y). lra.
    - destruct v as [|y v]; cbn [map2 map fold_right]; [rewrite Rabs_R0; lra|]. specialize (IH v a Pa (fun z Hz => Ha z (or_intror Hz))).
      pose proof (Ha x (or_introl eq_refl)). eapply Rle_trans; [apply Rabs_triang|]. rewrite Rabs_mult. pose proof (Rabs_pos y). nra. }
  intros v. apply G; [apply amax_pos | apply amax_in].
Qed.
Lemma amax_pairs f g n a : 0 <= a -> (forall i, (i < n)%nat -> Rabs (f i) <= a /\ Rabs (g i) <= a) -> amax (pairs f g n) <= a.
Proof.
  intros Pa H. assert (G : forall l, (forall i, In i l -> (i < n)%nat) -> amax (flat_map (fun i => [f i; g i]) l) <= a).
  { induction l as [|i l IH]; intros Hl; [exact Pa|]. cbn [flat_map app amax fold_right]. destruct (H i (Hl i (or_introl eq_refl))).
    repeat apply Rmax_lub; auto. apply IH. intros j Hj. apply Hl. now right. }
  apply G. intros i Hi. apply in_seq in Hi. lia.
Qed.

(** ** the bilinear form of a chain *)
Fixpoint pol (e d : nat -> R) (m : nat) : R :=
  match m with O => e O * d O | S m => pol e d m + (e (S m) - e m) * (d (S m) - d m) end.
Lemma chain_ext e d m : (forall i, (i <= m)%nat -> e i = d i) -> chain e m = chain d m.
Proof. induction m as [|m IH]; intros H; cbn [chain]; [now rewrite H by lia|]. rewrite IH, !H by (try intros; try apply H; lia). reflexivity. Qed.
Lemma chain_pol e d t m : chain (fun i => e i + t * d i) m = chain e m + 2 * t * pol e d m + t * t * chain d m.
Proof. induction m as [|m IH]; cbn [chain pol]; unfold sq in *; [ring|]. rewrite IH. ring. Qed.
Lemma pol_zero e d m : (forall i, (i <= m)%nat -> e i = 0) -> pol e d m = 0.
Proof. induction m as [|m IH]; intros H; cbn [pol]; [rewrite H by lia; ring|]. rewrite IH, !H by (try intros; try apply H; lia). ring. Qed.
Lemma pol_zero_r e d m : (forall i, (i <= m)%nat -> d i = 0) -> pol e d m = 0.
Proof. induction m as [|m IH]; intros H; cbn [pol]; [rewrite H by lia; ring|]. rewrite IH, !H by (try intros; try apply H; lia). ring. Qed.
Lemma pol_ramp e i m : (i <= m)%nat -> pol e (fun j => INR (Nat.min i j) + 1) m = e i.
Proof.
  intros Hi. induction Hi as [|m Hi IH].
  - induction i as [|i IH]; cbn [pol]; [simpl; ring|]. rewrite Nat.min_id, Nat.min_r by lia.
    assert (E : pol e (fun j => INR (Nat.min (S i) j) + 1) i = pol e (fun j => INR (Nat.min i j) + 1) i).
    { assert (G : forall k, (k <= i)%nat -> pol e (fun j => INR (Nat.min (S i) j) + 1) k = pol e (fun j => INR (Nat.min i j) + 1) k).
      { induction k as [|k IHk]; intros Hk; cbn [pol]; [simpl Nat.min; rewrite Nat.min_0_r; reflexivity|]. rewrite IHk by lia.
        rewrite !(Nat.min_r (S i)), !(Nat.min_r i) by lia. reflexivity. }
      now apply G. }
    rewrite E, IH, S_INR. ring.
  - cbn [pol]. rewrite IH, !Nat.min_l by lia. ring.
Qed.
Lemma pol_arith c N e p m : (forall i, e i = c * ((INR i + 1) * N - INR i * (INR i + 1) / 2)) ->
  pol e p m = c * (sumR (map p (seq 0 (S m))) + (N - 1 - INR m) * p m).
Proof.
  intros He. induction m as [|m IH].
  - cbn [pol]. rewrite He. unfold sumR. cbn [seq map fold_right INR]. field.
  - cbn [pol]. rewrite IH. assert (E : seq 0 (S (S m)) = seq 0 (S m) ++ [S m]) by apply seq_S. rewrite E, map_app, sumR_app.
    rewrite !He. unfold sumR at 3. cbn [map fold_right]. rewrite !S_INR. field.
Qed.

(** ** the gradient of the stairs *)
Section Gradient.
Variable n : nat.
Hypothesis Hn : (1 <= n)%nat.
Hypothesis Hf : few (8 * n).
Local Notation s := (stairs_sketch n).
Lemma stairs_read h px py : same_structure (stairs_heap n) h -> finite_data h s -> get_data h s = map Fin (pairs px py n) ->
  forall i, (i < n)%nat -> cx (cfg_of h) i = px i /\ cy (cfg_of h) i = py i.
Proof.
  intros S FD G. rewrite (stairs_data n Hn Hf h S FD) in G. apply (f_equal (map vx)) in G. rewrite !map_vx_Fin in G. now apply pairs_inj.
Qed.
Variable h : heap xR.
Hypothesis S : same_structure (stairs_heap n) h.
Hypothesis FD : finite_data h s.
Lemma stairs_pairing h1 g px py : get_gradient s h = (h1, Val (map Fin g)) -> dotL g (pairs px py n) = pol (ex h) px (n - 1) + pol (ey h) py (n - 1).
Proof.
  intros Eg. pose proof (stairs_valid n Hn Hf h S) as V. pose proof (stairs_finite n Hn Hf h S FD) as CF.
  destruct (linear_quadratic h s V CF (stairs_linear n Hn h S)) as (h2 & g' & l & Eg' & _ & El & Q).
  rewrite Eg in Eg'. assert (g = g') as <-.
  { injection Eg' as _ E. apply (f_equal (map vx)) in E. now rewrite !map_vx_Fin in E. }
  clear Eg' Eg. assert (Ld : length (pairs px py n) = get_n_dofs h s).
  { rewrite pairs_length, <- (stair_length n Hn Hf h S FD). unfold stair_list. now rewrite len2, seq_length. }
  destruct (Q _ Ld) as (q & _ & Qt). clear Q.
  assert (M : forall t, get_loss (moved h s (pairs px py n) t) s =
    Fin (/ 2 * (chain (ex h) (n - 1) + chain (ey h) (n - 1)) + t * (pol (ex h) px (n - 1) + pol (ey h) py (n - 1)) + t * t * (/ 2 * (chain px (n - 1) + chain py (n - 1))))).
  { intros t. pose proof (moved_at h s _ t V Ld) as (Sm & Dm & _). set (hm := moved h s (pairs px py n) t) in *.
    assert (Sm' : same_structure (stairs_heap n) hm) by (eapply (pre_trans _ struct_pre); [exact S | exact Sm]).
    assert (FDm : finite_data hm s) by (apply (finite_iff _ _ (valid_keys _ _ (stairs_valid n Hn Hf hm Sm'))); rewrite Dm; apply finite_FinV).
    rewrite (stairs_loss n Hn Hf hm Sm' FDm). f_equal. rewrite (stairs_data n Hn Hf h S FD), map_vx_Fin in Dm. unfold pairs in Dm at 1. rewrite pairs_map2 in Dm.
    pose proof (stairs_read hm _ _ Sm' FDm Dm) as R.
    rewrite (chain_ext (ex hm) (fun i => ex h i + t * px i)), (chain_ext (ey hm) (fun i => ey h i + t * py i)).
    - rewrite !chain_pol. field.
    - intros i Hi. unfold ey. destruct (R i) as [_ ->]; [lia|]. ring.
    - intros i Hi. unfold ex. destruct (R i) as [-> _]; [lia|]. ring. }
  pose proof (Qt 1) as Q1. pose proof (Qt (-1)) as Q2. rewrite M in Q1, Q2. apply (f_equal vx) in Q1, Q2. cbn [vx] in Q1, Q2. lra.
Qed.
Lemma stairs_row h1 g i : get_gradient s h = (h1, Val (map Fin g)) -> (i < n)%nat ->
  Rabs (ex h i) <= amax g * sumR (map (fun j => INR (Nat.min i j) + 1) (seq 0 n)) /\
  Rabs (ey h i) <= amax g * sumR (map (fun j => INR (Nat.min i j) + 1) (seq 0 n)).
Proof.
  intros Eg Hi. assert (P : forall l, sumR (map Rabs (flat_map (fun j => [INR (Nat.min i j) + 1; 0]) l)) = sumR (map (fun j => INR (Nat.min i j) + 1) l) /\
    sumR (map Rabs (flat_map (fun j => [0; INR (Nat.min i j) + 1]) l)) = sumR (map (fun j => INR (Nat.min i j) + 1) l)).
  { unfold sumR. induction l as [|j l [IH1 IH2]]; [split; reflexivity|]. cbn [flat_map app map fold_right]. rewrite IH1, IH2, Rabs_R0, (Rabs_pos_eq (_ + 1)); [split; ring|].
    pose proof (pos_INR (Nat.min i j)). lra. }
  split.
  - pose proof (stairs_pairing h1 g (fun j => INR (Nat.min i j) + 1) (fun _ => 0) Eg) as E. rewrite pol_ramp, (pol_zero_r (ey h)), Rplus_0_r in E by (auto; lia).
    rewrite <- E. eapply Rle_trans; [apply dotL_abs|]. unfold pairs. rewrite (proj1 (P _)). lra.
  - pose proof (stairs_pairing h1 g (fun _ => 0) (fun j => INR (Nat.min i j) + 1) Eg) as E. rewrite pol_ramp, (pol_zero_r (ex h)), Rplus_0_l in E by (auto; lia).
    rewrite <- E. eapply Rle_trans; [apply dotL_abs|]. unfold pairs. rewrite (proj2 (P _)). lra.
Qed.
Lemma row_sum i : (i <= n - 2)%nat -> (2 <= n)%nat -> sumR (map (fun j => INR (Nat.min i j) + 1) (seq 0 n)) <= (INR n - 1) * (INR n + 2) / 2.
Proof.
  intros Hi H2. apply Rle_trans with (sumR (map (fun j => INR (Nat.min (n - 2) j) + 1) (seq 0 n))).
  - apply sum_le. intros j _. apply Rplus_le_compat_r, le_INR. lia.
  - assert (G : forall m, (m <= n - 1)%nat -> sumR (map (fun j => INR (Nat.min (n - 2) j) + 1) (seq 0 m)) = INR m * (INR m + 1) / 2).
    { induction m as [|m IH]; intros Hm; [unfold sumR; simpl; field|]. assert (E : seq 0 (Datatypes.S m) = seq 0 m ++ [m]) by apply seq_S.
      rewrite E, map_app, sumR_app, IH by lia. unfold sumR. cbn [map fold_right]. rewrite Nat.min_r by lia. rewrite S_INR. field. }
    assert (E : seq 0 n = seq 0 (n - 1) ++ [n - 1]%nat) by (transitivity (seq 0 (Datatypes.S (n - 1))); [f_equal; lia | apply seq_S]).
    rewrite E, map_app, sumR_app, G by lia. unfold sumR. cbn [map fold_right]. rewrite Nat.min_l by lia. rewrite !minus_INR by lia. simpl INR. lra.
Qed.
End Gradient.

(** ** where the solvers stop *)
Lemma gd_at_once (h h1 : heap xR) s P g : get_gradient s h = (h1, Val g) -> flt (get_loss h1 s) (gd_min_loss P) = true -> (0 < gd_max P)%N -> gd_run s P h = (h1, Val (SOk 0%nat)).
Proof.
  intros Eg H G. unfold gd_run, mbind. rewrite Eg. destruct (N.to_nat (gd_max P)) as [|m] eqn:E; [lia|]. cbn [gd_loop]. destruct (flt (vnorm g) _); [reflexivity|]. now rewrite H.
Qed.
Lemma bfgs_at_gradient (h h1 : heap xR) s P g : get_gradient s h = (h1, Val g) -> all_finite g = true -> flt (vnorm_inf g) (bf_grad P) = true -> (0 < bf_max P)%N ->
  exists h', bfgs_run s P h = (h', Val (SOk 0%N)) /\ (h' = h \/ h' = h1).
Proof.
  intros Eg Fg H G. unfold bfgs_run. replace (2 * N.to_nat (bf_max P) + 2)%nat with (S (2 * N.to_nat (bf_max P) + 1)) by lia. cbn [bfgs_loop].
  apply N.ltb_lt in G. rewrite G. cbn [negb]. destruct (flt (get_loss h s) _); [exists h; auto|]. exists h1. unfold mbind at 1. rewrite Eg, Fg. cbn [negb]. rewrite H. auto.
Qed.
Lemma gradient_ex s (h h1 : heap xR) r i : get_gradient s h = (h1, r) -> ex h1 i = ex h i /\ ey h1 i = ey h i.
Proof.
  intros E. apply gradient_sd in E as [_ D]. unfold ex, ey. cbn [cfg_of cx cy]. specialize (D (PPoint i) I). cbn [prim_data] in D.
  injection D as -> ->. auto.
Qed.
(** *** BFGS, up to 13 points *)
Lemma stairs_bfgs13_lemma n (h h' : heap xR) k : (1 <= n <= 13)%nat -> same_structure (stairs_heap n) h -> finite_data h (stairs_sketch n) ->
  bfgs_run (stairs_sketch n) bfgs_default h = (h', Val (SOk k)) -> (k < 1000)%N -> stairs_check n h' (flit 1 6) = true.
Proof.
  intros [Hn Hm] S FD E Hk. assert (Hf : few (8 * n)) by (unfold few; lia).
  pose proof (stairs_valid n Hn Hf h S) as V. destruct (bfgs_run_kept _ _ _ _ _ V FD E) as [Fr FD'].
  assert (S' : same_structure (stairs_heap n) h') by (eapply (pre_trans _ struct_pre); [exact S | apply Fr]).
  rewrite eps_1em6. apply C22_bfgs_lemma in E; auto.
  pose proof (stairs_finite n Hn Hf h' S' FD') as CF. pose proof (get_loss_R h' _ CF) as El. set (l := sumR _) in El.
  assert (In12 : INR (n - 1) <= 12) by (change 12 with (IZR (Z.of_nat 12)); rewrite <- INR_IZR_INZ; apply le_INR; lia).
  assert (In13 : INR n <= 13) by (change 13 with (IZR (Z.of_nat 13)); rewrite <- INR_IZR_INZ; apply le_INR; lia).
  pose proof (pos_INR (n - 1)) as P1. pose proof (pos_INR n) as P2.
  destruct E as [E|[(g & Eg & E)|E]].
  - rewrite El in E. unfold bfgs_default in E; cbn [bf_min_loss flit ArithR] in E. apply lt_true in E.
    apply (stairs_check_loss n Hn Hf h' S' FD' l); auto; [lra|]. pose proof (loss_pos _ _ _ CF El). simpl in E. nra.
  - destruct (get_gradient (stairs_sketch n) h') as [h1 o] eqn:Eg'. cbn [snd] in Eg. subst o.
    destruct (ok_grad (stairs_sketch n) h' h' h1 g Eg') as (gr & -> & Lg). rewrite vnorm_inf_R in E.
    unfold bfgs_default in E; cbn [bf_grad flit ArithR] in E. apply lt_true in E. simpl in E. pose proof (amax_pos gr) as Pa.
    apply (stairs_check_R n Hn Hf h' S' FD'). intros i Hi. destruct (stairs_row n Hn Hf h' S' FD' h1 gr i Eg' ltac:(lia)) as [B1 B2].
    pose proof (row_sum n Hn i ltac:(lia) ltac:(lia)) as R. clearbody l. set (w := sumR _) in *. assert (1 <= INR n) by (change 1 with (INR 1); now apply le_INR).
    assert (W : w <= 90) by (eapply Rle_trans; [exact R|]; nra). clear R.
    assert (amax gr * w <= / 100000000 * 90) by (eapply Rle_trans; [apply Rmult_le_compat_l; [exact Pa | exact W]|]; apply Rmult_le_compat_r; lra). lra.
  - exfalso. unfold bfgs_default in E; cbn [bf_max] in E. lia.
Qed.
(** *** from 14 points on, a gradient below the tolerance everywhere and a point out of tolerance *)
Lemma stairs_bfgs14_lemma n : (14 <= n)%nat -> few (8 * n) -> exists h h' : heap xR, same_structure (stairs_heap n) h /\ finite_data h (stairs_sketch n) /\
  bfgs_run (stairs_sketch n) bfgs_default h = (h', Val (SOk 0%N)) /\ stairs_check n h' (flit 1 6) = false.
Proof.
  intros H14 Hf. assert (Hn : (1 <= n)%nat) by lia. set (c := 99 / 10000000000). set (e := fun i => c * ((INR i + 1) * INR n - INR i * (INR i + 1) / 2)).
  destruct (stairs_place n (fun i => stair_x i + e i) stair_y Hn Hf) as (h & S & FD & P).
  pose proof (stairs_valid n Hn Hf h S) as V. pose proof (stairs_finite n Hn Hf h S FD) as CF.
  destruct (linear_quadratic h _ V CF (stairs_linear n Hn h S)) as (h1 & g & l & Eg & Lg & El & _).
  assert (X : forall i, (i < n)%nat -> ex h i = e i /\ ey h i = 0). { intros i Hi. unfold ex, ey. destruct (P i Hi) as [-> ->]. split; ring. }
  assert (Lg2 : length g = (2 * n)%nat).
  { rewrite Lg, <- (stair_length n Hn Hf h S FD). unfold stair_list. now rewrite len2, seq_length. }
  assert (D : forall v, length v = (2 * n)%nat -> dotL g v = dotL (pairs (fun _ => c) (fun _ => 0) n) v).
  { intros v Lv. rewrite (pairs_of v n Lv) at 1 2. rewrite (stairs_pairing n Hn Hf h S FD h1 g _ _ Eg), dotL_pairs.
    rewrite (pol_zero (ey h)), Rplus_0_r by (intros i Hi; apply X; lia).
    set (p := fun i => nth (2 * i) v 0). assert (E : pol (ex h) p (n - 1) = pol e p (n - 1)).
    { assert (G : forall m, (m <= n - 1)%nat -> pol (ex h) p m = pol e p m).
      { induction m as [|m IH]; intros Hm; cbn [pol]; rewrite ?IH by lia; destruct (X 0%nat ltac:(lia)) as [X0 _]; rewrite ?X0; auto.
        destruct (X m ltac:(lia)) as [-> _], (X (Datatypes.S m) ltac:(lia)) as [-> _]. reflexivity. }
      now apply G. }
    rewrite E, (pol_arith c (INR n) e p (n - 1) ltac:(reflexivity)). rewrite minus_INR by lia. replace (Datatypes.S (n - 1)) with n by lia.
    simpl (INR 1). replace (INR n - 1 - (INR n - 1)) with 0 by ring. rewrite Rmult_0_l, Rplus_0_r.
    unfold sumR. induction (seq 0 n) as [|i il IH]; cbn [map fold_right]; [ring|]. rewrite <- IH. unfold p. ring. }
  assert (Eq : g = pairs (fun _ => c) (fun _ => 0) n).
  { set (gc := pairs _ _ n) in *. assert (Lc : length gc = (2 * n)%nat) by apply pairs_length.
    assert (Z : dist2 g gc = 0).
    { assert (Lm : length (minusL g gc) = (2 * n)%nat) by (rewrite minusL_length; congruence). pose proof (D _ Lm) as Dm.
      rewrite dist2_dot. assert (G : forall u v w, length u = length v -> length v = length w -> dotL (minusL u v) w = dotL u w - dotL v w).
      { unfold dotL, minusL, sumR. induction u as [|x u IH]; intros [|y v] [|z w] A B; cbn [map2 fold_right length] in *; try discriminate; [ring|].
        rewrite IH by lia. ring. }
      rewrite G by congruence. lra. }
    revert Z. clear - Lg2 Lc. assert (L : length g = length gc) by congruence. clear Lg2 Lc. clearbody gc. revert gc L. unfold dist2, sumR.
    induction g as [|x g IH]; intros [|y gc] L Z; cbn [map2 fold_right length] in *; try discriminate; auto.
    assert (P : 0 <= fold_right Rplus 0 (map2 (fun x y => sq (x - y)) g gc)).
    { clear. revert gc. induction g as [|x g IH]; intros [|y gc]; cbn [map2 fold_right]; try lra. specialize (IH gc). unfold sq at 1. pose proof (Rle_0_sqr (x - y)). unfold Rsqr in *. lra. }
    unfold sq at 1 in Z. pose proof (Rle_0_sqr (x - y)) as Q. unfold Rsqr in Q. f_equal; [nra|]. apply IH; [lia | lra]. }
  destruct (bfgs_at_gradient h h1 (stairs_sketch n) bfgs_default (map Fin g) Eg) as (h' & Er & Eh).
  - apply finite_FinV.
  - change (map Fin g) with (FinV g). rewrite vnorm_inf_R. unfold bfgs_default; cbn [bf_grad flit ArithR]. apply lt_true. rewrite Eq.
    apply Rle_lt_trans with c; [|unfold c; simpl; lra]. apply amax_pairs; [unfold c; lra|]. intros i _. rewrite Rabs_R0, Rabs_pos_eq; unfold c; lra.
  - reflexivity.
  - exists h, h'. do 3 (split; [auto|]). destruct (bfgs_run_kept _ _ _ _ _ V FD Er) as [Fr FD'].
    assert (S' : same_structure (stairs_heap n) h') by (eapply (pre_trans _ struct_pre); [exact S | apply Fr]).
    apply not_true_iff_false. rewrite eps_1em6, (stairs_check_R n Hn Hf h' S' FD'). intros B. destruct (B (n - 2)%nat ltac:(lia)) as [B1 _].
    assert (Ex : ex h' (n - 2) = e (n - 2)%nat).
    { destruct (X (n - 2)%nat ltac:(lia)) as [<- _]. destruct Eh as [->| ->]; [reflexivity|]. apply (gradient_ex _ _ _ _ _ Eg). }
    rewrite Ex in B1. unfold e in B1. rewrite minus_INR in B1 by lia. change (INR 2) with 2 in B1.
    assert (14 <= INR n) by (replace 14 with (INR 14) by (simpl; ring); now apply le_INR). set (N := INR n) in *.
    apply Rle_trans with (1 := Rle_abs _) in B1. replace ((N - 2 + 1) * N - (N - 2) * (N - 2 + 1) / 2) with ((N - 1) * (N + 2) / 2) in B1 by field. unfold c in B1.
    assert (208 <= (N - 1) * (N + 2)) by nra. lra.
Qed.
(** *** gradient descent from 52 points on: a loss below the tolerance and a point out of tolerance *)
Lemma chain_line c m : chain (fun i => c * (INR i + 1)) m = c * c * (INR m + 1).
Proof. induction m as [|m IH]; cbn [chain]; unfold sq in *; [simpl; ring|]. rewrite IH, S_INR. ring. Qed.
Lemma stairs_gd52_lemma n : (52 <= n)%nat -> few (8 * n) -> exists h h' : heap xR, same_structure (stairs_heap n) h /\ finite_data h (stairs_sketch n) /\
  gd_run (stairs_sketch n) gd_default h = (h', Val (SOk 0%nat)) /\ stairs_check n h' (flit 1 6) = false.
Proof.
  intros H52 Hf. assert (Hn : (1 <= n)%nat) by lia. set (N := INR (n - 1)).
  assert (HN : 51 <= N) by (unfold N; replace 51 with (INR 51) by (simpl; ring); apply le_INR; lia).
  (* c^2 (n - 1) = 1.97e-14, so that the loss is 0.985e-14 *)
  set (c := sqrt (197 / 10 ^ 16 / N)). assert (C2 : c * c = 197 / 10 ^ 16 / N).
  { apply sqrt_sqrt. apply Rlt_le, Rdiv_lt_0_compat; simpl; lra. }
  assert (Pc : 0 <= c) by apply sqrt_pos.
  set (e := fun i => c * (INR (Nat.min i (n - 2)) + 1)).
  destruct (stairs_place n (fun i => stair_x i + e i) stair_y Hn Hf) as (h & S & FD & P).
  pose proof (stairs_valid n Hn Hf h S) as V. pose proof (stairs_finite n Hn Hf h S FD) as CF.
  destruct (linear_quadratic h _ V CF (stairs_linear n Hn h S)) as (h1 & g & l & Eg & Lg & El & _).
  assert (X : forall i, (i < n)%nat -> ex h i = e i /\ ey h i = 0). { intros i Hi. unfold ex, ey. destruct (P i Hi) as [-> ->]. split; ring. }
  assert (L : l = 985 / 10 ^ 17).
  { rewrite (stairs_loss n Hn Hf h S FD) in El. apply (f_equal vx) in El. cbn [vx] in El. rewrite <- El.
    rewrite (chain_of_zero (ey h)) by (intros i Hi; apply X; lia). rewrite (chain_ext _ e) by (intros i Hi; apply X; lia).
    replace (n - 1)%nat with (Datatypes.S (n - 2)) by lia. cbn [chain]. rewrite (chain_ext e (fun i => c * (INR i + 1))) by (intros i Hi; unfold e; rewrite Nat.min_l by lia; reflexivity).
    rewrite chain_line. unfold e. rewrite Nat.min_r, Nat.min_id by lia. replace (INR (n - 2) + 1) with N by (unfold N; replace (n - 1)%nat with (Datatypes.S (n - 2)) by lia; rewrite S_INR; ring).
    rewrite C2. unfold sq. simpl. field. lra. }
  assert (L1 : get_loss h1 (stairs_sketch n) = Fin l).
  { rewrite <- El. apply sd_get_loss. apply gradient_sd in Eg. exact Eg. }
  exists h, h1. do 2 (split; [auto|]). split.
  - apply (gd_at_once h h1 _ _ _ Eg); [|reflexivity]. rewrite L1. unfold gd_default; cbn [gd_min_loss flit ArithR]. apply lt_true. rewrite L. simpl. lra.
  - pose proof (gradient_sd _ _ _ _ Eg) as [St D].
    assert (S' : same_structure (stairs_heap n) h1) by (eapply (pre_trans _ struct_pre); [exact S | exact St]).
    assert (FD' : finite_data h1 (stairs_sketch n)) by (intros x Hx; rewrite (D x I); now apply FD).
    apply not_true_iff_false. rewrite eps_1em6, (stairs_check_R n Hn Hf h1 S' FD'). intros B. destruct (B (n - 2)%nat ltac:(lia)) as [B1 _].
    rewrite (proj1 (gradient_ex _ _ _ _ _ Eg)) in B1. destruct (X (n - 2)%nat ltac:(lia)) as [Ex _]. rewrite Ex in B1. unfold e in B1. rewrite Nat.min_id in B1.
    replace (INR (n - 2) + 1) with N in B1 by (unfold N; replace (n - 1)%nat with (Datatypes.S (n - 2)) by lia; rewrite S_INR; ring).
    apply Rle_trans with (1 := Rle_abs _) in B1. assert (Q : c * N * (c * N) <= / 1000000 * / 1000000) by (apply Rmult_le_compat; nra).
    replace (c * N * (c * N)) with (c * c * N * N) in Q by ring. rewrite C2 in Q. replace (197 / 10 ^ 16 / N * N * N) with (197 / 10 ^ 16 * N) in Q by (field; lra). simpl in Q. lra.
Qed.
