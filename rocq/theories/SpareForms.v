(** * Unconstrained primitives in exact arithmetic and in binary64 (for C95) *)
From Coq Require Import List ZArith NArith Arith Bool Lia Reals Lra Floats.SpecFloat.
From Verif Require Import Arith Vec Prim Cons Sketch Solve Api Spec HeapLemmas SolveLemmas BookLemmas WfLemmas DataLemmas SpecLemmas PureLemmas
  ArithR ArithF ExactSpec ExactLemmas RMat GradLemmas RestLemmas RestFloat RestForms StepLemmas StayLemmas NumSpec MonoFloat SpareSpec SpareLemmas.
Import ListNotations.

(** ** Exact arithmetic *)
Section X.
Local Open Scope R_scope.
Lemma dot_app u1 : forall v1 u2 v2, length u1 = length v1 -> dotL (u1 ++ u2) (v1 ++ v2) = dotL u1 v1 + dotL u2 v2.
Proof.
  intros v1 u2 v2 H. unfold dotL. rewrite map2_app by exact H. generalize (map2 Rmult u1 v1) (map2 Rmult u2 v2). clear.
  intros l1 l2. induction l1 as [|x l1 IH]; simpl; [lra|]. rewrite IH. lra.
Qed.
Lemma dot_left0 k : forall v, dotL (repeat 0 k) v = 0.
Proof. exact (dot_zeros k). Qed.
Lemma pads_dot keep b2 cs : (forall c, length (b2 c) = dim c) -> forall a a' b b', pads keep (fun c => repeat 0 (dim c)) cs a a' -> pads keep b2 cs b b' -> dotL a' b' = dotL a b.
Proof.
  intros Hb a a' b b' P1. revert b b'. induction P1 as [|c cs x u v Hk Hl P IH|c cs u v Hk P IH]; intros b b' P2; inversion P2; subst; try congruence.
  - rewrite !dot_app by congruence. f_equal. now apply IH.
  - rewrite dot_app by now rewrite repeat_length, Hb. rewrite dot_left0, (IH b v0) by assumption. lra.
Qed.
Lemma pads_fin keep (b : pcell -> list xR) cs u v : (forall c, In c cs -> all_finite (b c) = true) -> pads keep b cs u v -> all_finite u = true -> all_finite v = true.
Proof.
  intros Hb P. unfold all_finite in *. induction P as [|c cs x u v Hk Hl P IH|c cs u v Hk P IH]; auto; rewrite ?forallb_app, ?andb_true_iff.
  - intros [H1 H2]. split; auto. apply IH; auto. intros; apply Hb; now right.
  - intros H. split; [apply Hb; now left|]. apply IH; auto. intros; apply Hb; now right.
Qed.
Lemma zeros_fin k z : ffin z = true -> all_finite (repeat (z : xR) k) = true.
Proof. intros H. unfold all_finite. induction k; [reflexivity|]. cbn [repeat forallb]. now rewrite H. Qed.
Lemma dot_exact keep cs (z1 z2 : xR) : z1 = Fin 0 -> ffin z2 = true -> forall u u' v v', pads keep (fun c => repeat z1 (dim c)) cs u u' -> pads keep (fun c => repeat z2 (dim c)) cs v v' ->
  all_finite u = true -> all_finite v = true -> vdot u' v' = vdot u v.
Proof.
  intros -> H2 u u' v v' P1 P2 F1 F2.
  assert (F1' : all_finite u' = true) by (apply (pads_fin _ _ _ _ _ (fun c _ => zeros_fin (dim c) (Fin 0) eq_refl) P1 F1)).
  assert (F2' : all_finite v' = true) by (apply (pads_fin _ _ _ _ _ (fun c _ => zeros_fin (dim c) z2 H2) P2 F2)).
  rewrite (FinV_vx u F1), (FinV_vx u' F1'), (FinV_vx v F2), (FinV_vx v' F2'), !vdot_R. f_equal.
  apply (pads_dot keep (fun c => map vx (repeat z2 (dim c))) cs); [intros; now rewrite map_length, repeat_length | | now apply pads_map].
  eapply pads_ext; [|apply pads_map, P1]. intros c _ _. cbv beta. now rewrite map_repeat.
Qed.
Lemma C95_exact_lemma P (h : heap xR) s s' : valid h s -> valid h s' -> finite_data h s' -> with_spare h s s' -> same_course (gd_run s P h) (gd_run s' P h).
Proof.
  intros V V' Fd W. 
  assert (FD : forall c, In c (cells s') -> all_finite (prim_data h c) = true).
  { intros c Hc. apply forallb_forall. apply Forall_forall. apply Fd. now apply (valid_reg _ _ _ V'). }
  assert (Fx : forall c d, In c (cells s') -> In d (prim_data h c) -> exists r, d = Fin r).
  { intros c d Hc Hd. specialize (FD c Hc). unfold all_finite in FD. rewrite forallb_forall in FD. specialize (FD d Hd). destruct d; try discriminate. eauto. }
  apply (spare_gd s s' h V V' W (fun _ a => ffin a = true)).
  - reflexivity.
  - intros n a Ha. destruct a; try discriminate. reflexivity.
  - intros n a Ha. destruct a; try discriminate. reflexivity.
  - reflexivity.
  - intros c Hc _. now apply FD.
  - intros a c d Hc _ Hd (n & Ha). destruct (Fx c d Hc Hd) as (r & ->). destruct a; try discriminate. apply f_equal with (f := Fin). simpl. lra.
  - intros a c d Hc _ Hd (n & Ha). destruct (Fx c d Hc Hd) as (r & ->). destruct a; try discriminate. apply f_equal with (f := Fin). simpl. lra.
  - exact (dot_exact (has_cell s) (cells s') f0 (fneg f0) f0_R eq_refl).
  - intros a b Q1 F1. exact (dot_exact (has_cell s) (cells s') f0 f0 f0_R eq_refl _ _ _ _ Q1 Q1 F1 F1).
  - intros x H. destruct x; try discriminate. reflexivity.
Qed.
End X.

(** ** Binary64 *)
Lemma pads_last {T} keep (b : pcell -> list T) new : (forall c, In c new -> keep c = false) -> forall l, (forall c, In c l -> keep c = true) ->
  forall u v, pads keep b (l ++ new) u v -> length u = dims l /\ v = u ++ flat_map b new.
Proof.
  intros Hn. induction l as [|c l IH]; intros Hl u v P.
  - cbn [app] in P. induction P as [|c cs x u v Hk Hx P IH|c cs u v Hk P IH]; [auto | |].
    + rewrite Hn in Hk by now left. discriminate.
    + destruct IH as [E1 E2]; [intros; apply Hn; now right|]. destruct u; [|discriminate]. split; auto. cbn [flat_map]. now rewrite E2.
  - inversion P as [|c' cs' x u' v' Hk Hx P'|c' cs' u' v' Hk P']; subst.
    + destruct (IH (fun c Hc => Hl c (or_intror Hc)) _ _ P') as [E1 ->]. split; [|now rewrite app_assoc].
      rewrite app_length, Hx, E1. reflexivity.
    + rewrite Hl in Hk by now left. discriminate.
Qed.
Section B.
Variable L : libm.
Let A := ArithF L.
Local Existing Instance A.
Implicit Types x z : spec_float.

Lemma lanes_short a0 a1 a2 a3 a4 a5 a6 a7 (p : list spec_float) : length p < 8 ->
  sum_lanes a0 a1 a2 a3 a4 a5 a6 a7 p = fold_left fadd p (f0 +f (a0 +f a4) +f (a1 +f a5) +f (a2 +f a6) +f (a3 +f a7)).
Proof. intros H. do 8 (destruct p as [|? p]; [reflexivity|]). cbn [length] in H. lia. Qed.
Section G.
Variables good item : spec_float -> Prop.
Hypothesis g0 : good f0.
Hypothesis gg : forall x y, good x -> good y -> good (x +f y).
Hypothesis gi : forall x y, good x -> item y -> good (x +f y).
Lemma fold_good p : forall x, good x -> Forall item p -> good (fold_left fadd p x).
Proof. induction p as [|y p IH]; intros x Hx H; [exact Hx|]. inversion H; subst. cbn [fold_left]. apply IH; auto. Qed.
Lemma fold_still q : Forall (fun z => forall x, good x -> x +f z = x) q -> forall x, good x -> fold_left fadd q x = x.
Proof. induction 1 as [|z q Hz _ IH]; intros x Hx; [reflexivity|]. cbn [fold_left]. rewrite Hz by exact Hx. now apply IH. Qed.
Lemma lanes_tail q : Forall (fun z => forall x, good x -> x +f z = x) q -> forall n p, length p <= n -> Forall item p ->
  (length p + length q) / 8 = length p / 8 -> forall a0 a1 a2 a3 a4 a5 a6 a7, good a0 -> good a1 -> good a2 -> good a3 -> good a4 -> good a5 -> good a6 -> good a7 ->
  sum_lanes a0 a1 a2 a3 a4 a5 a6 a7 (p ++ q) = sum_lanes a0 a1 a2 a3 a4 a5 a6 a7 p.
Proof.
  intros Hq. induction n as [|n IH]; intros p Hn Hp Hd a0 a1 a2 a3 a4 a5 a6 a7 G0 G1 G2 G3 G4 G5 G6 G7.
  - destruct p; [|simpl in Hn; lia]. simpl length in Hd. apply Nat.div_small_iff in Hd; [|lia].
    rewrite !lanes_short by (cbn [app length]; lia). cbn [app fold_left]. apply fold_still; auto 10.
  - destruct (Nat.lt_ge_cases (length p) 8) as [H8|H8].
    + rewrite (Nat.div_small (length p)) in Hd by exact H8. apply Nat.div_small_iff in Hd; [|lia].
      rewrite !lanes_short by (rewrite ?app_length; lia). rewrite fold_left_app. apply fold_still; auto. apply fold_good; [auto 10|exact Hp].
    + do 8 (destruct p as [|? p]; [simpl in H8; lia|]). do 8 (apply Forall_cons_iff in Hp as [? Hp]).
      cbn [app sum_lanes]. apply IH; auto; [cbn [length] in Hn; lia|]. cbn [length] in Hd.
      replace (S (S (S (S (S (S (S (S (length p)))))))) + length q) with (length p + length q + 1 * 8) in Hd by lia.
      replace (S (S (S (S (S (S (S (S (length p))))))))) with (length p + 1 * 8) in Hd by lia. rewrite !Nat.div_add in Hd by lia. lia.
Qed.
End G.

(** numbers without a minus sign *)
Definition plain x : Prop := match x with S754_zero true | S754_infinity true | S754_finite true _ _ => False | _ => True end.
Lemma plain_aux mx ex lx : plain (binary_round_aux 53 1024 false mx ex lx).
Proof. unfold binary_round_aux. destruct (shr_fexp _ _ _ _ _) as [r e]. destruct (shr_fexp _ _ _ _ _) as [r' e']. destruct (shr_m r'); try exact I. destruct (_ <=? _)%Z; exact I. Qed.
Lemma plain_round mx ex : plain (binary_round 53 1024 false mx ex).
Proof. unfold binary_round. destruct (shl_align _ _ _). apply plain_aux. Qed.
Lemma plain_add x y : plain x -> plain y -> plain (x +f y).
Proof.
  destruct x as [[]|[]| |[] m e], y as [[]|[]| |[] m' e']; intros Hx Hy; try contradiction; try exact I. 
  change (plain (SFadd 53 1024 (S754_finite false m e) (S754_finite false m' e'))). unfold SFadd. cbv zeta.
  cbn [cond_Zopp]. unfold binary_normalize. rewrite <- Pos2Z.inj_add. apply plain_round.
Qed.
Lemma plain_square x : plain (x *f x).
Proof. destruct x as [[]|[]| |[] m e]; try exact I; change (plain (binary_round_aux 53 1024 false (Zpos (m * m)) (e + e) loc_Exact)); apply plain_aux. Qed.
Lemma plus_zero x : plain x -> x +f S754_zero false = x.
Proof. destruct x as [[]| | |]; intros H; try contradiction; reflexivity. Qed.

Lemma C95_binary64_lemma P (h : heap spec_float) s s' : valid h s -> valid h s' -> finite_data h s' -> with_spare h s s' -> spare_last h s s' ->
  (forall c, registered s' c -> ~ registered s c -> Forall canonical (prim_data h c)) ->
  same_course (gd_run s P h) (gd_run s' P h).
Proof.
  intros V V' Fd W [(new & En) Hd] Hf.
  assert (Kt : forall c, In c (cells s) -> has_cell s c = true) by (intros c; apply (keep_iff s)).
  assert (Kf : forall c, In c new -> has_cell s c = false).
  { intros c Hc. destruct (has_cell s c) eqn:E; [|reflexivity]. apply (keep_iff s) in E.
    exfalso. clear - E Hc En V'. assert (N : NoDup (cells s')) by apply V'. rewrite En in N. revert N E. generalize (cells s). induction l as [|x l IH]; intros N E; [contradiction|].
    cbn [app] in N. inversion N; subst. destruct E as [->|E]; [apply H1; apply in_or_app; now right|]. now apply IH. }
  assert (Ln : forall b : pcell -> list spec_float, (forall c, length (b c) = dim c) -> (dims (cells s) + length (flat_map b new)) / 8 = dims (cells s) / 8).
  { intros b Hb. rewrite !n_dofs_dims in Hd. rewrite <- Hd, En. f_equal. unfold dims. rewrite map_app, list_sum_app. f_equal.
    induction new as [|c l IH]; [reflexivity|]. clear - Hb. induction (c :: l) as [|x y IH]; [reflexivity|]. cbn [flat_map]. rewrite app_length, Hb, IH. reflexivity. }
  assert (Nc : forall c, In c (cells s') -> has_cell s c = false -> all_finite (prim_data h c) = true /\ Forall canonical (prim_data h c)).
  { intros c Hc Hk. split; [apply forallb_forall; apply Forall_forall; apply Fd; now apply (valid_reg _ _ _ V')|]. apply Hf; [now apply (valid_reg _ _ _ V')|]. intros R. apply (valid_reg _ _ _ V) in R. apply Kt in R. congruence. }
  apply (spare_gd s s' h V V' W (fun n a => steps_ok L n a = true)).
  - unfold ls_max_iter. exact (steps_15 L).
  - intros n a Ha. cbn [steps_ok] in Ha. apply andb_true_iff in Ha as [_ Ha]. now apply andb_true_iff in Ha as [Ha _].
  - intros n a Ha. cbn [steps_ok] in Ha. apply andb_true_iff in Ha as [_ Ha]. now apply andb_true_iff in Ha as [_ Ha].
  - reflexivity.
  - intros c Hc Hk. now apply Nc.
  - intros a c d Hc Hk Hi (n & Ha). cbn [steps_ok] in Ha. apply andb_true_iff in Ha as [Ha _].
    change (SFadd 53 1024 d (SFmul 53 1024 a (S754_zero true)) = d). now rewrite pos_times_neg0, plus_neg0.
  - intros a c d Hc Hk Hi (n & Ha). cbn [steps_ok] in Ha. apply andb_true_iff in Ha as [Ha _].
    destruct (Nc c Hc Hk) as [_ Hcan]. rewrite Forall_forall in Hcan. specialize (Hcan d Hi).
    change (SFadd 53 1024 (SFmul 53 1024 a (S754_zero true)) (SFmul 53 1024 (lit64 1 0) d) = d).
    now rewrite pos_times_neg0, mul_one64, add_comm64, plus_neg0.
  - intros u u' v v' P1 P2 _ _. rewrite En in P1, P2. apply pads_last in P1 as [L1 ->]; auto. apply pads_last in P2 as [L2 ->]; auto.
    unfold vdot. rewrite map2_app by congruence.
    apply (lanes_tail (fun _ => True) (fun _ => True)) with (n := length (map2 fmul u v)); auto.
    + assert (G : forall k, Forall (fun z => forall x, True -> x +f z = x) (map2 fmul (repeat f0 k) (repeat (fneg f0) k))).
      { induction k; constructor; auto. intros x _. exact (plus_neg0 x). }
      clear - G. induction new as [|c l IH]; [constructor|]. cbn [flat_map]. rewrite map2_app by now rewrite !repeat_length. apply Forall_app. auto.
    + apply Forall_forall. auto.
    + assert (X : forall k, length (map2 fmul (flat_map (fun c => repeat f0 (dim c)) k) (flat_map (fun c => repeat (fneg f0) (dim c)) k)) = length (flat_map (fun c => repeat (f0 : spec_float) (dim c)) k)).
      { intros k. apply map2_length. induction k as [|c k IH]; [reflexivity|]. cbn [flat_map]. rewrite !app_length, !repeat_length. congruence. }
      rewrite X, map2_length, L1 by congruence. apply Ln. intros; apply repeat_length.
  - intros u u' P1 _. rewrite En in P1. apply pads_last in P1 as [L1 ->]; auto.
    unfold vdot. rewrite map2_app by reflexivity.
    apply (lanes_tail plain plain) with (n := length (map2 fmul u u)); auto; try exact I.
    + exact plain_add.
    + exact plain_add.
    + assert (G : forall k, Forall (fun z => forall x, plain x -> x +f z = x) (map2 fmul (repeat f0 k) (repeat f0 k))).
      { induction k; constructor; auto. intros x. exact (plus_zero x). }
      clear - G. induction new as [|c l IH]; [constructor|]. cbn [flat_map]. rewrite map2_app by reflexivity. apply Forall_app. auto.
    + clear. induction u as [|x u IH]; constructor; auto. apply plain_square.
    + rewrite !map2_length, L1 by reflexivity. apply Ln. intros; apply repeat_length.
  - intros x H. destruct x; try discriminate; reflexivity.
Qed.
End B.
