(** * A deserialised sketch under every solver, and in binary64 (for C48) *)
From Coq Require Import List ZArith NArith Arith Bool Lia Sorted Reals Floats.SpecFloat.
From Verif Require Import Arith Vec Prim Cons Sketch Solve Serde Api Spec HeapLemmas SolveLemmas BookLemmas WfLemmas DataLemmas SpecLemmas
  ArithR ArithF ExactSpec MotionSpec PureLemmas RestLemmas ExactLemmas GradLemmas StepLemmas SerdeSpec SerdeLemmas SerdeForms MotionLemmas StayLemmas.
Import ListNotations.

Lemma copy_finite (h h0 h' : heap xR) s s' : valid h s -> finite_data h s -> all_con_finite h s -> heap_ok h0 ->
  deserialize (serialize h s) h0 = (h', s') -> valid h' s' /\ finite_data h' s' /\ all_con_finite h' s'.
Proof.
  intros V Fd CF O D. pose proof (copy_v h h0 h' s s' V D O) as V'. destruct (C47_values h h0 h' s s' V D) as (Ed & _).
  split; [exact V'|]. split.
  { apply (finite_iff _ _ (valid_keys _ _ V')). rewrite Ed. now apply (finite_iff _ _ (valid_keys _ _ V)). }
  destruct (ser_parts h h0 h' s s' V D) as (_ & _ & E). intros k Hk.
  assert (X : exists k0, In k0 (s_cons s) /\ ser_con h' (getK h' k) = ser_con h (getK h k0)).
  { assert (I : In (ser_con h' (getK h' k)) (map (fun k => ser_con h' (getK h' k)) (s_cons s'))) by (apply in_map_iff; eauto).
    rewrite E in I. apply in_map_iff in I as (k0 & E0 & Hk0). eauto. }
  destruct X as (k0 & Hk0 & E0). destruct (CF k0 Hk0) as [C1 C2]. destruct (ser_con_deps _ _ _ _ E0) as [E1 E2]. split; [congruence|].
  intros d Hd. assert (I : In (prim_data h' d) (map (prim_data h') (deps h' (getK h' k)))) by (apply in_map_iff; eauto).
  rewrite E1 in I. apply in_map_iff in I as (d0 & <- & Hd0). now apply C2.
Qed.

Lemma C48_every_solver_lemma pinv sol (h h0 h' : heap xR) s s' : exact_pinv pinv -> finite_steps sol ->
  valid h s -> finite_data h s -> all_con_finite h s -> heap_ok h0 ->
  deserialize (serialize h s) h0 = (h', s') -> get_data (fst (solve pinv sol s' h')) s' = get_data h s.
Proof.
  intros Hp Hf V Fd CF O D. destruct (copy_finite h h0 h' s s' V Fd CF O D) as (V' & Fd' & CF').
  destruct (C47_values h h0 h' s s' V D) as (Ed & _). rewrite <- Ed.
  unfold get_data. rewrite !flat_map_concat_map. f_equal. apply map_ext_in. intros c Hc.
  assert (R : registered s' c) by now apply (valid_reg _ _ _ V').
  apply C31_all_lemma; auto. intros k Hk. now apply (not_deps h h0 h' s s' V D O).
Qed.

(** ** Binary64 *)
Section B.
Variable L : libm.
Let A := ArithF L.
Local Existing Instance A.

Lemma fold_zeros64 k : fold_left fadd (repeat (S754_zero false) k) (S754_zero false) = S754_zero false.
Proof. induction k; [reflexivity|]. exact IHk. Qed.
Lemma lanes_zeros64 m : forall k, k <= m ->
  sum_lanes (S754_zero false) (S754_zero false) (S754_zero false) (S754_zero false) (S754_zero false) (S754_zero false) (S754_zero false) (S754_zero false)
    (repeat (S754_zero false) k) = S754_zero false.
Proof.
  induction m as [|m IH]; intros k Hk.
  - assert (k = 0) by lia. subst. reflexivity.
  - do 8 (destruct k as [|k]; [reflexivity|]). cbn [repeat sum_lanes]. apply IH. lia.
Qed.
Lemma zeros_repeat (g : list spec_float) : Forall (fun x => x = f0) g -> g = repeat (S754_zero false) (length g).
Proof. induction 1 as [|x g -> _ IH]; [reflexivity|]. simpl. now rewrite <- IH. Qed.
Lemma norm_zeros64 g : Forall (fun x => x = f0) g -> vnorm g = S754_zero false.
Proof.
  intros H. rewrite (zeros_repeat g H). set (k := length g). unfold vnorm, vdot.
  assert (E : map2 fmul (repeat (S754_zero false) k) (repeat (S754_zero false) k) = repeat (S754_zero false) k).
  { induction k as [|k IH]; [reflexivity|]. cbn [repeat map2]. rewrite IH. reflexivity. }
  rewrite E. etransitivity; [exact (f_equal fsqrt (lanes_zeros64 k k (le_n _)))|reflexivity].
Qed.
Lemma norm_inf_zeros64 g : Forall (fun x => x = f0) g -> vnorm_inf g = S754_zero false.
Proof. intros H. rewrite (zeros_repeat g H). set (k := length g). unfold vnorm_inf. induction k as [|k IH]; [reflexivity|]. exact IH. Qed.

Lemma C48_binary64_lemma pinv sol (h h0 h' : heap spec_float) s s' : valid h s -> heap_ok h0 ->
  deserialize (serialize h s) h0 = (h', s') ->
  match sol with
  | GradientBased P => SFltb (S754_zero false) (gd_min_grad P) = true
  | BFGS P => SFltb (S754_zero false) (bf_grad P) = true
  | _ => False
  end ->
  get_data (fst (solve pinv sol s' h')) s' = get_data h s /\
  (forall c, prim_data (fst (solve pinv sol s' h')) c = prim_data h' c) /\
  (snd (solve pinv sol s' h') = Val (SOk tt) \/
   snd (solve pinv sol s' h') = Panic /\ snd (get_gradient s' h') = Panic).
Proof.
  intros V O D T. destruct (C47_values h h0 h' s s' V D) as (Ed & _).
  assert (X : (forall c, prim_data (fst (solve pinv sol s' h')) c = prim_data h' c) /\
    (snd (solve pinv sol s' h') = Val (SOk tt) \/ snd (solve pinv sol s' h') = Panic /\ snd (get_gradient s' h') = Panic)).
  2:{ split; [|exact X]. rewrite <- Ed. destruct X as [X _]. unfold get_data. rewrite !flat_map_concat_map. f_equal. apply map_ext. exact X. }
  destruct (get_gradient s' h') as [h1 [g|]] eqn:Eg.
  - pose proof (proj1 (C48_gradient_lemma h h0 h' s s' V O D) h1 g Eg) as Z.
    destruct sol as [P|P|P|P]; try contradiction.
    + rewrite (C30_gd_lemma pinv s' P h' h1 g Eg); [cbn [fst snd]; split; [exact (C30_data_lemma s' h' h1 _ Eg)|now left]|].
      right; left. rewrite (norm_zeros64 g Z). exact T.
    + destruct (C30_bfgs_grad_lemma pinv s' P h' h1 g Eg) as (h2 & -> & H2).
      { rewrite (norm_inf_zeros64 g Z). exact T. }
      cbn [fst snd]. split; [|now left]. destruct H2 as [->| ->]; [reflexivity|exact (C30_data_lemma s' h' h1 _ Eg)].
  - pose proof (C30_data_lemma s' h' h1 _ Eg) as Hd. destruct sol as [P|P|P|P]; try contradiction.
    + cbn [solve]. unfold gd_run, mbind. rewrite Eg. cbn [fst snd]. split; [exact Hd|right; auto].
    + destruct (N.eq_0_gt_0_cases (bf_max P)) as [E|E].
      { rewrite (C30_bfgs_loss_lemma pinv s' P h' (or_introl E)). cbn [fst snd]. split; [reflexivity|now left]. }
      destruct (flt (get_loss h' s') (bf_min_loss P)) eqn:El.
      { rewrite (C30_bfgs_loss_lemma pinv s' P h' (or_intror El)). cbn [fst snd]. split; [reflexivity|now left]. }
      assert (X : solve pinv (BFGS P) s' h' = (h1, Panic)).
      { cbn [solve]. unfold bfgs_run, mbind at 1. replace (2 * N.to_nat (bf_max P) + 2) with (S (2 * N.to_nat (bf_max P) + 1)) by lia.
        cbn [bfgs_loop]. rewrite (proj2 (N.ltb_lt _ _) E). cbn [negb]. rewrite El. unfold mbind. cbv beta. rewrite Eg. reflexivity. }
      rewrite X. cbn [fst snd]. split; [exact Hd|right; auto].
Qed.
End B.
