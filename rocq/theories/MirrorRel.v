(** * A family of relations kept by the arithmetic is kept by gradient descent and BFGS *)
From Coq Require Import List ZArith NArith Arith Bool Lia.
From Verif Require Import Arith Vec Prim Cons Sketch Solve MirrorSpec.
Import ListNotations.

Section Rel.
Context {F : Type} {A : Arith F}.
Variable R : bool -> F -> F -> Prop.
Record kept : Prop := {
  k_refl : forall x, R false x x;
  k_zero : forall s, R s f0 f0;
  k_add : forall s x y x' y', R s x x' -> R s y y' -> R s (x +f y) (x' +f y');
  k_sub : forall s x y x' y', R s x x' -> R s y y' -> R s (x -f y) (x' -f y');
  k_neg : forall s x x', R s x x' -> R s (fneg x) (fneg x');
  k_mul : forall s t x y x' y', R s x x' -> R t y y' -> R (xorb s t) (x *f y) (x' *f y');
  k_div : forall s x x' d, R s x x' -> R s (x /f d) (x' /f d);
  k_sq : forall s x x', R s x x' -> x *f x = x' *f x';
  k_abs : forall s x x', R s x x' -> fabs x = fabs x';
  k_sqrt : forall x x', R false x x' -> R false (fsqrt x) (fsqrt x');
  k_flt : forall x x' y y', R false x x' -> R false y y' -> flt x y = flt x' y';
  k_fle : forall x x' y y', R false x x' -> R false y y' -> fle x y = fle x' y';
  k_fin : forall s x x', R s x x' -> ffin x = ffin x';
  k_nz : forall d d', R false d d' -> flt (fabs d) (flit 1 16) = false -> d = d';
  k_shift : forall d d', R false d d' -> d +f flit 1 6 = d' +f flit 1 6;
  k_sin : forall s x x', R s x x' -> R s (fsin x) (fsin x');
  k_cos : forall s x x', R s x x' -> R false (fcos x) (fcos x');
  k_acos : forall x x', R false x x' -> R false (facos x) (facos x') }.
Hypothesis K : kept.
Variables sx sy : bool.

Notation rv := (mir_vec R).
Lemma r_eq x x' : x = x' -> R false x x'. Proof. intros ->. apply K. Qed.
Lemma r_mul r s t x y x' y' : R s x x' -> R t y y' -> r = xorb s t -> R r (x *f y) (x' *f y').
Proof. intros ? ? ->. now apply K. Qed.
Lemma r_mulf s x y x' y' : R false x x' -> R s y y' -> R s (x *f y) (x' *f y').
Proof. intros. eapply r_mul; eauto. now destruct s. Qed.
Lemma r_fmul s x y x' y' : R s x x' -> R false y y' -> R s (x *f y) (x' *f y').
Proof. intros. eapply r_mul; eauto. now destruct s. Qed.
Lemma r_prod s x y x' y' : R s x x' -> R s y y' -> R false (x *f y) (x' *f y').
Proof. intros. eapply r_mul; eauto. now destruct s. Qed.

(** ** Vectors and matrices *)
Lemma rv_length ss u v : rv ss u v -> length u = length ss /\ length v = length ss.
Proof. induction 1 as [|s ss x y u v _ _ [E1 E2]]; simpl; auto. Qed.
Lemma rv_map2 (f : F -> F -> F) ss u u' v v' : (forall s x x' y y', R s x x' -> R s y y' -> R s (f x y) (f x' y')) ->
  rv ss u u' -> rv ss v v' -> rv ss (map2 f u v) (map2 f u' v').
Proof. intros Hf Hu. revert v v'. induction Hu; intros ? ? Hv; inversion Hv; subst; simpl; constructor; auto. Qed.
Lemma rv_add ss u u' v v' : rv ss u u' -> rv ss v v' -> rv ss (vadd u v) (vadd u' v').
Proof. apply rv_map2. intros. now apply K. Qed.
Lemma rv_sub ss u u' v v' : rv ss u u' -> rv ss v v' -> rv ss (vsub u v) (vsub u' v').
Proof. apply rv_map2. intros. now apply K. Qed.
Lemma rv_axpy ss a a' b b' u u' v v' : R false a a' -> R false b b' -> rv ss u u' -> rv ss v v' -> rv ss (vaxpy a u b v) (vaxpy a' u' b' v').
Proof.
  intros Ha Hb Hu. revert v v'. induction Hu; intros ? ? Hv; inversion Hv; subst; simpl; constructor; auto.
  - apply K; now apply r_mulf.
  - now apply IHHu.
Qed.
Lemma rv_neg ss u u' : rv ss u u' -> rv ss (vneg u) (vneg u').
Proof. induction 1; simpl; constructor; auto. now apply K. Qed.
Lemma rv_scale t ss a a' u u' : R t a a' -> rv ss u u' -> rv (map (xorb t) ss) (vscale a u) (vscale a' u').
Proof. intros Ha. induction 1; simpl; constructor; auto. now apply K. Qed.
Lemma map_xf ss : map (xorb false) ss = ss.
Proof. induction ss as [|s ss IH]; simpl; auto. rewrite IH. now destruct s. Qed.
Lemma rv_scalef ss a a' u u' : R false a a' -> rv ss u u' -> rv ss (vscale a u) (vscale a' u').
Proof. intros Ha Hu. rewrite <- (map_xf ss). now apply rv_scale. Qed.
Lemma rv_divs ss u u' d : rv ss u u' -> rv ss (vdivs u d) (vdivs u' d).
Proof. induction 1; simpl; constructor; auto. now apply K. Qed.
Lemma F2_fold s u u' : Forall2 (R s) u u' -> forall a a', R s a a' -> R s (fold_left fadd u a) (fold_left fadd u' a').
Proof. induction 1; simpl; auto. intros. apply IHForall2. now apply K. Qed.
Lemma F2_lanes k s : forall p p', length p <= k -> Forall2 (R s) p p' -> forall a0 a1 a2 a3 a4 a5 a6 a7 b0 b1 b2 b3 b4 b5 b6 b7,
  R s a0 b0 -> R s a1 b1 -> R s a2 b2 -> R s a3 b3 -> R s a4 b4 -> R s a5 b5 -> R s a6 b6 -> R s a7 b7 ->
  R s (sum_lanes a0 a1 a2 a3 a4 a5 a6 a7 p) (sum_lanes b0 b1 b2 b3 b4 b5 b6 b7 p').
Proof.
  induction k as [|k IH]; intros p p' L Hp; intros.
  - destruct Hp; [|inversion L]. cbn [sum_lanes fold_left]. repeat apply K; auto.
  - do 8 (destruct Hp as [|? ? ? ? ? Hp]; [cbn [sum_lanes]; apply F2_fold; [repeat (constructor; auto) | repeat apply K; auto]|]). cbn [sum_lanes].
    apply IH; auto; try (apply K; auto). simpl in L. lia.
Qed.
Lemma F2_prods ss u u' v v' : rv ss u u' -> rv ss v v' -> Forall2 (R false) (map2 fmul u v) (map2 fmul u' v').
Proof. intros Hu. revert v v'. induction Hu; intros ? ? Hv; inversion Hv; subst; simpl; constructor; auto. eapply r_prod; eauto. Qed.
Lemma r_dot ss u u' v v' : rv ss u u' -> rv ss v v' -> R false (vdot u v) (vdot u' v').
Proof. intros Hu Hv. apply (F2_lanes _ _ _ _ (le_n _)); try apply K. eapply F2_prods; eauto. Qed.
Lemma r_norm ss u u' : rv ss u u' -> R false (vnorm u) (vnorm u').
Proof. intros H. apply K. eapply r_dot; eauto. Qed.
Lemma norm_inf_eq ss u u' : rv ss u u' -> vnorm_inf u = vnorm_inf u'.
Proof.
  intros H. unfold vnorm_inf. generalize f0. induction H as [|s ss x y u v Hx Hu IH]; simpl; auto. intros a. now rewrite (k_abs K _ _ _ Hx), IH.
Qed.
Lemma fin_eq ss u u' : rv ss u u' -> all_finite u = all_finite u'.
Proof. induction 1 as [|s ss x y u v Hx Hu IH]; simpl; auto. unfold all_finite in *. simpl. now rewrite (k_fin K _ _ _ Hx), IH. Qed.
Lemma r_sum1 s u u' : Forall2 (R s) u u' -> R s (sum1 u) (sum1 u').
Proof. destruct 1; simpl; [apply K|]. now apply F2_fold. Qed.

(** the entry (i, j) carries the product of the signs of its row and its column *)
Notation rm := (mir_mat R).
Lemma xx a b : xorb (xorb a b) b = a. Proof. now destruct a, b. Qed.
Lemma xx' a b : xorb a (xorb a b) = b. Proof. now destruct a, b. Qed.
Lemma rv_entry a cs u u' j : rv (map (xorb a) cs) u u' -> R (xorb a (nth j cs false)) (nth j u f0) (nth j u' f0).
Proof.
  revert u u' j. induction cs as [|c cs IH]; simpl; intros u u' j H; inversion H; subst.
  - destruct j; apply K.
  - destruct j; simpl; auto.
Qed.
Lemma rv_nth ss u u' j : rv ss u u' -> R (nth j ss false) (nth j u f0) (nth j u' f0).
Proof. intros H. rewrite <- (map_xf ss) in H. apply (rv_entry _ _ _ _ j) in H. now destruct (nth j ss false). Qed.
Lemma rv_seq cs (f g : nat -> F) : (forall j, j < length cs -> R (nth j cs false) (f j) (g j)) -> rv cs (map f (seq 0 (length cs))) (map g (seq 0 (length cs))).
Proof.
  revert f g. induction cs as [|c cs IH]; intros f g H; simpl; constructor.
  - apply (H 0). simpl. lia.
  - rewrite <- seq_shift, !map_map. apply IH. intros j Hj. apply (H (S j)). simpl. lia.
Qed.
Lemma rm_seq cs ss (f g : nat -> vec F) : (forall i, i < length ss -> rv (map (xorb (nth i ss false)) cs) (f i) (g i)) ->
  rm cs ss (map f (seq 0 (length ss))) (map g (seq 0 (length ss))).
Proof.
  revert f g. induction ss as [|c ss IH]; intros f g H; simpl; constructor.
  - apply (H 0). simpl. lia.
  - rewrite <- seq_shift, !map_map. apply IH. intros j Hj. apply (H (S j)). simpl. lia.
Qed.
Lemma r_coldot cs ss m m' r r' j : rm cs ss m m' -> rv ss r r' -> Forall2 (R (nth j cs false)) (map2 fmul r (mcol j m)) (map2 fmul r' (mcol j m')).
Proof.
  intros Hm. revert r r'. induction Hm as [|a ss q q' m m' Hq Hm IH]; intros r r' Hr; inversion Hr; subst; simpl; constructor.
  - eapply r_mul; [eassumption | apply (rv_entry _ _ _ _ j Hq) | now rewrite xx'].
  - now apply IH.
Qed.
Lemma rv_rowmul n cs ss m m' r r' : n = length cs -> rm cs ss m m' -> rv ss r r' -> rv cs (rowmul n r m) (rowmul n r' m').
Proof.
  intros -> Hm Hr. unfold rowmul, mtrans. rewrite !map_map. apply rv_seq. intros j _. apply r_sum1. now apply (r_coldot cs ss).
Qed.
Lemma F2_rowdot a cs r r' v v' : rv (map (xorb a) cs) r r' -> rv cs v v' -> Forall2 (R a) (map2 fmul r v) (map2 fmul r' v').
Proof.
  revert r r' v v'. induction cs as [|c cs IH]; intros r r' v v' Hr Hv; inversion Hv; subst; simpl in Hr; inversion Hr; subst; simpl; constructor.
  - eapply r_mul; eauto. now rewrite xx.
  - now apply IH.
Qed.
Lemma rv_mvec cs ss m m' v v' : rm cs ss m m' -> rv cs v v' -> rv ss (mvec m v) (mvec m' v').
Proof. intros Hm Hv. induction Hm; simpl; constructor; auto. apply r_sum1. eapply F2_rowdot; eauto. Qed.
Lemma rm_neg cs ss m m' : rm cs ss m m' -> rm cs ss (mneg m) (mneg m').
Proof. induction 1; simpl; constructor; auto. now apply rv_neg. Qed.
Lemma rm_ident ss n : n = length ss -> rm ss ss (mident n) (mident n).
Proof.
  intros ->. apply rm_seq. intros i Hi. rewrite <- (map_length (xorb (nth i ss false)) ss) at 1 2. apply rv_seq. rewrite map_length. intros j Hj.
  destruct (Nat.eqb_spec i j) as [->|]; [|apply K]. rewrite (nth_indep _ _ (xorb (nth j ss false) false)) by now rewrite map_length. rewrite map_nth, xorb_nilpotent. apply K.
Qed.
Lemma rm_ger cs ss al al' be be' x x' y y' m m' : R false al al' -> R false be be' -> rv ss x x' -> rv cs y y' -> rm cs ss m m' ->
  rm cs ss (mger al x y be m) (mger al' x' y' be' m').
Proof.
  intros Ha Hb Hx Hy Hm. revert x x' Hx. induction Hm as [|a ss r r' m m' Hr Hm IH]; intros x x' Hx; inversion Hx; subst; unfold mger; simpl; constructor.
  - match goal with X : R a _ _ |- _ => rename X into HX end. clear - Ha Hb Hy Hr K HX. revert r r' Hr. induction Hy; intros r r' Hr; simpl in Hr; inversion Hr; subst; simpl; constructor; auto.
    apply K; [|now apply r_mulf]. eapply r_mul; [apply r_mulf; eassumption | eassumption | apply xorb_comm].
  - now apply IH.
Qed.

Lemma rv_rowmul_at a n cs ks m m' r r' : n = length cs -> rm cs ks m m' -> rv (map (xorb a) ks) r r' -> rv (map (xorb a) cs) (rowmul n r m) (rowmul n r' m').
Proof.
  intros -> Hm Hr. unfold rowmul, mtrans. rewrite !map_map. rewrite <- (map_length (xorb a) cs). apply rv_seq. intros j Hj. apply r_sum1.
  rewrite map_length in Hj. rewrite (nth_indep _ _ (xorb a false)) by now rewrite map_length. rewrite map_nth.
  revert r r' Hr. induction Hm as [|b ss q q' m m' Hq Hm IH]; intros r r' Hr; cbn [map] in Hr; inversion Hr; subst; simpl; constructor.
  - eapply r_mul; [eassumption | apply (rv_entry _ _ _ _ j Hq) |]. now destruct a, b, (nth j cs false).
  - now apply IH.
Qed.
Lemma rm_mul n cs ks ss a a' b b' : n = length cs -> rm ks ss a a' -> rm cs ks b b' -> rm cs ss (mmul n a b) (mmul n a' b').
Proof. intros E Ha Hb. induction Ha; cbn [mmul map]; constructor; auto. eapply rv_rowmul_at; eauto. Qed.
Lemma rm_trans n cs ss m m' : n = length cs -> rm cs ss m m' -> rm ss cs (mtrans n m) (mtrans n m').
Proof.
  intros -> Hm. apply rm_seq. intros j Hj. induction Hm as [|a ss r r' m m' Hr Hm IH]; simpl; constructor; auto.
  rewrite xorb_comm. now apply rv_entry.
Qed.
Lemma rm_scale cs ss a m m' : rm cs ss m m' -> rm cs ss (mscale a m) (mscale a m').
Proof. induction 1; simpl; constructor; auto. apply rv_scalef; auto. apply K. Qed.
Lemma rm_add cs ss m m' q q' : rm cs ss m m' -> rm cs ss q q' -> rm cs ss (madd m q) (madd m' q').
Proof. intros Hm. revert q q'. induction Hm; intros ? ? Hq; inversion Hq; subst; simpl; constructor; auto. now apply rv_add. now apply IHHm. Qed.
Lemma rv_muls ss u u' a : rv ss u u' -> rv ss (vmuls u a) (vmuls u' a).
Proof. induction 1; simpl; constructor; auto. apply r_fmul; auto. apply K. Qed.

(** ** The heap *)
Notation H2 := (mirrored R sx sy).
Notation pR := (mir_point R sx sy).
Notation aR := (mir_arc R sy).
Notation cR := (mir_circle R).
Notation kR := (mir_con R sx sy).
Lemma F2_nth {T} (Q : T -> T -> Prop) u v d i : Forall2 Q u v -> Q d d -> Q (nth i u d) (nth i v d).
Proof. intros H Hd. revert i. induction H; intros [|i]; simpl; auto. Qed.
Lemma F2_lset {T} (Q : T -> T -> Prop) u v i x y : Forall2 Q u v -> Q x y -> Forall2 Q (lset u i x) (lset v i y).
Proof. intros H Hd. revert i. induction H; intros [|i]; simpl; constructor; auto. Qed.
Lemma getP_R h h' l : H2 h h' -> pR (getP h l) (getP h' l).
Proof. intros (H & _). unfold getP; apply F2_nth; auto. constructor; apply K. Qed.
Lemma getA_R h h' l : H2 h h' -> aR (getA h l) (getA h' l).
Proof. intros (_ & _ & H & _). unfold getA; apply F2_nth; auto. constructor; apply K. Qed.
Lemma getC_R h h' l : H2 h h' -> cR (getC h l) (getC h' l).
Proof. intros (_ & _ & _ & H & _). unfold getC; apply F2_nth; auto. constructor; apply K. Qed.
Lemma getK_R h h' l : H2 h h' -> kR (getK h l) (getK h' l).
Proof. intros (_ & _ & _ & _ & H). unfold getK; apply F2_nth; auto. constructor. Qed.
Lemma getL_R h h' l : H2 h h' -> getL h' l = getL h l.
Proof. intros (_ & H & _). unfold getL. now rewrite H. Qed.
Lemma setP_R h h' l p p' : H2 h h' -> pR p p' -> H2 (setP h l p) (setP h' l p').
Proof. intros (H1 & HL & Ha & Hc & Hk) Hp. split; [now apply F2_lset|]. auto. Qed.
Lemma setA_R h h' l p p' : H2 h h' -> aR p p' -> H2 (setA h l p) (setA h' l p').
Proof. intros (H1 & HL & Ha & Hc & Hk) Hp. repeat (split; auto). now apply F2_lset. Qed.
Lemma setC_R h h' l p p' : H2 h h' -> cR p p' -> H2 (setC h l p) (setC h' l p').
Proof. intros (H1 & HL & Ha & Hc & Hk) Hp. repeat (split; auto). now apply F2_lset. Qed.

(** ** Losses and gradient rows *)
Definition R2 (p q : F * F) := R sx (fst p) (fst q) /\ R sy (snd p) (snd q).
Lemma pdata_R h h' l : H2 h h' -> R2 (pdata h l) (pdata h' l).
Proof. intros H. apply (getP_R _ _ l) in H. unfold pdata, p_data. destruct H. now split. Qed.
Lemma start_R h h' l : H2 h h' -> R2 (line_start h l) (line_start h' l).
Proof. intros H. unfold line_start. rewrite (getL_R h h' l H). now apply pdata_R. Qed.
Lemma end_R h h' l : H2 h h' -> R2 (line_end h l) (line_end h' l).
Proof. intros H. unfold line_end. rewrite (getL_R h h' l H). now apply pdata_R. Qed.
Lemma sub_R p p' q q' : R2 p p' -> R2 q q' -> R2 (v2sub p q) (v2sub p' q').
Proof. intros [] []. split; now apply K. Qed.
Lemma dot_R p p' q q' : R2 p p' -> R2 q q' -> R false (v2dot p q) (v2dot p' q').
Proof. intros [] []. apply K; eapply r_prod; eauto. Qed.
Lemma norm2_E p p' : R2 p p' -> v2norm2 p = v2norm2 p'.
Proof. intros [E1 E2]. unfold v2norm2, v2dot. now rewrite (k_sq K _ _ _ E1), (k_sq K _ _ _ E2). Qed.
Lemma norm_E p p' : R2 p p' -> v2norm p = v2norm p'.
Proof. intros H. unfold v2norm. now rewrite (norm2_E p p' H). Qed.
Lemma unit_R p p' : R2 p p' -> R2 (v2normalize p) (v2normalize p').
Proof. intros H. unfold v2normalize. rewrite <- (norm_E p p' H). destruct H. split; now apply K. Qed.
Lemma v2fin_E p p' : R2 p p' -> v2finite p = v2finite p'.
Proof. intros [E1 E2]. unfold v2finite. now rewrite (k_fin K _ _ _ E1), (k_fin K _ _ _ E2). Qed.
Lemma row_R p p' : R2 p p' -> rv [sx; sy] (v2row p) (v2row p').
Proof. intros []. repeat constructor; auto. Qed.
Lemma half_R s x x' : R s x x' -> R false (half_sq x) (half_sq x').
Proof. intros H. unfold half_sq. eapply r_prod; [apply r_mulf; [apply K | exact H] | exact H]. Qed.
Lemma aend_R h h' l : sx = false -> H2 h h' -> R2 (arc_end_point h (getA h l)) (arc_end_point h' (getA h' l)).
Proof.
  intros S H. pose proof (getA_R h h' l H) as G. unfold arc_end_point. destruct G; cbn [a_center a_radius a_ea].
  pose proof (getP_R h h' c H) as G. destruct G; cbn [p_x p_y]. split; simpl.
  - rewrite S in *. apply K; auto. apply r_mulf; auto. eapply K; eauto.
  - apply K; auto. apply r_mulf; auto. now apply K.
Qed.
Lemma astart_R h h' l : sx = false -> H2 h h' -> R2 (arc_start_point h (getA h l)) (arc_start_point h' (getA h' l)).
Proof.
  intros S H. pose proof (getA_R h h' l H) as G. unfold arc_start_point. destruct G; cbn [a_center a_radius a_sa].
  pose proof (getP_R h h' c H) as G. destruct G; cbn [p_x p_y]. split; simpl.
  - rewrite S in *. apply K; auto. apply r_mulf; auto. eapply K; eauto.
  - apply K; auto. apply r_mulf; auto. now apply K.
Qed.
Lemma clamp_R x x' : R false x x' -> R false (fclamp fm1 f1 x) (fclamp fm1 f1 x').
Proof.
  intros H. unfold fclamp, fgt. rewrite <- (k_flt K _ _ _ _ H (k_refl K fm1)).
  assert (R false (if flt x fm1 then fm1 else x) (if flt x fm1 then fm1 else x')) as E by (destruct (flt x fm1); auto; apply K).
  rewrite <- (k_flt K _ _ _ _ (k_refl K f1) E). destruct (flt f1 _); auto. apply K.
Qed.
Ltac norms := repeat match goal with
  | E : R2 ?p ?p' |- context [v2norm ?p'] => rewrite <- (norm_E p p' E)
  | E : R2 ?p ?p' |- context [v2norm2 ?p'] => rewrite <- (norm2_E p p' E)
  end.
Lemma angle_R h h' a b m : H2 h h' -> R false (current_angle h a b m) (current_angle h' a b m).
Proof.
  intros H. unfold current_angle.
  pose proof (sub_R _ _ _ _ (pdata_R h h' a H) (pdata_R h h' m H)) as E1.
  pose proof (sub_R _ _ _ _ (pdata_R h h' b H) (pdata_R h h' m H)) as E2. norms.
  destruct (_ || _); [apply K|]. pose proof (k_div K _ _ _ (v2norm (v2sub (pdata h a) (pdata h m)) *f v2norm (v2sub (pdata h b) (pdata h m))) (dot_R _ _ _ _ E1 E2)) as E.
  rewrite <- (k_fin K _ _ _ E). destruct (negb _); [apply K|]. apply K. now apply clamp_R.
Qed.
Lemma loss_R h h' c c' : H2 h h' -> kR c c' -> R false (loss_value h c) (loss_value h' c').
Proof.
  intros H Hc. destruct Hc; cbn [loss_value]; cbv zeta.
  - pose proof (k_sub K _ _ _ _ _ (angle_R h h' a b m H) H0) as E. apply r_mulf; [apply r_mulf; auto; apply K | exact E].
  - pose proof (sub_R _ _ _ _ (aend_R h h' a H0 H) (pdata_R h h' p H)) as [E1 E2]. cbn [v2sub fst snd] in *.
    apply r_mulf; [apply K|]. apply K; eapply r_prod; eauto.
  - pose proof (sub_R _ _ _ _ (astart_R h h' a H0 H) (pdata_R h h' p H)) as [E1 E2]. cbn [v2sub fst snd] in *.
    apply r_mulf; [apply K|]. apply K; eapply r_prod; eauto.
  - unfold current_distance. pose proof (sub_R _ _ _ _ (pdata_R h h' a H) (pdata_R h h' b H)) as E. norms. eapply half_R. apply K; [apply K | eassumption].
  - unfold current_hdistance. destruct (pdata_R h h' a H), (pdata_R h h' b H). eapply half_R. apply K; [apply K; eassumption | assumption].
  - unfold current_vdistance. destruct (pdata_R h h' a H), (pdata_R h h' b H). eapply half_R. apply K; [apply K; eassumption | assumption].
  - pose proof (sub_R _ _ _ _ (pdata_R h h' p H) (conj H0 H1 : R2 (x, y) (x', y'))) as E. norms. apply K.
  - pose proof (sub_R _ _ _ _ (end_R h h' a H) (start_R h h' a H)) as E1. pose proof (sub_R _ _ _ _ (end_R h h' b H) (start_R h h' b H)) as E2. norms. apply K.
  - destruct (end_R h h' l H), (start_R h h' l H). eapply half_R. apply K; eassumption.
  - destruct (end_R h h' l H), (start_R h h' l H). eapply half_R. apply K; eassumption.
  - pose proof (unit_R _ _ (sub_R _ _ _ _ (end_R h h' a H) (start_R h h' a H))) as E1. pose proof (unit_R _ _ (sub_R _ _ _ _ (end_R h h' b H) (start_R h h' b H))) as E2.
    rewrite <- (v2fin_E _ _ E1), <- (v2fin_E _ _ E2). destruct (negb _); [apply K|]. destruct E1, E2. apply (half_R (xorb sx sy)). apply K; eapply r_mul; eauto. apply xorb_comm.
  - pose proof (unit_R _ _ (sub_R _ _ _ _ (end_R h h' a H) (start_R h h' a H))) as E1. pose proof (unit_R _ _ (sub_R _ _ _ _ (end_R h h' b H) (start_R h h' b H))) as E2.
    rewrite <- (v2fin_E _ _ E1), <- (v2fin_E _ _ E2). destruct (negb _); [apply K|]. eapply half_R. now apply dot_R.
Qed.
Definition target_signs (t : gtarget) : list bool :=
  match t with GPoint _ => [sx; sy] | GLine _ => [sx; sy; sx; sy] | GArc _ => [sx; sy; false; sy; sy] end.
Definition rowR (tr tr' : gtarget * vec F) : Prop := fst tr = fst tr' /\ rv (target_signs (fst tr)) (snd tr) (snd tr').
Ltac ent := first [apply K | rewrite xorb_nilpotent; apply K | idtac].
Lemma pg_R : rm [sx; sy] [sx; sy] point_gradient point_gradient.
Proof. unfold point_gradient. repeat (constructor; ent). Qed.
Lemma sg_R : rm [sx; sy; sx; sy] [sx; sy] start_gradient start_gradient.
Proof. unfold start_gradient. repeat (constructor; ent). Qed.
Lemma eg_R : rm [sx; sy; sx; sy] [sx; sy] end_gradient end_gradient.
Proof. unfold end_gradient. repeat (constructor; ent). Qed.
Lemma ems_R : rm [sx; sy; sx; sy] [sx; sy] end_minus_start end_minus_start.
Proof.
  assert (Z : forall s, R s (f0 -f f0) (f0 -f f0)) by (intros; apply K; apply K).
  assert (O : forall x y, R false (x -f y) (x -f y)) by (intros; apply K).
  unfold end_minus_start, end_gradient, start_gradient. cbn [map2 vsub]. repeat (constructor; try apply Z; try (rewrite xorb_nilpotent; apply O)).
Qed.
Lemma ng_R p p' : R2 p p' -> rm [sx; sy] [sx; sy] (normalize_gradient p) (normalize_gradient p').
Proof.
  intros E. unfold normalize_gradient. cbv zeta. norms. destruct E as [Ex Ey]. constructor; [|constructor; [|constructor]]; cbn [map]; constructor; try constructor; try constructor.
  - rewrite xorb_nilpotent. apply K. apply K; [apply K|]. apply K. eapply r_prod; eauto.
  - apply K. apply K; [apply K|]. apply K. eapply r_mul; eauto.
  - apply K. apply K; [apply K|]. apply K. eapply r_mul; eauto.
  - rewrite xorb_nilpotent. apply K. apply K; [apply K|]. apply K. eapply r_prod; eauto.
Qed.
Lemma aeg_R h h' l : sx = false -> H2 h h' -> rm [sx; sy; false; sy; sy] [sx; sy] (arc_end_point_gradient (getA h l)) (arc_end_point_gradient (getA h' l)).
Proof.
  intros S H. pose proof (getA_R h h' l H) as G. unfold arc_end_point_gradient. destruct G; cbn [a_radius a_ea].
  constructor; [|constructor; [|constructor]]; cbn [map]; repeat apply MVcons; try apply MVnil;
    rewrite ?S, ?xorb_nilpotent, ?xorb_false_l, ?xorb_false_r; try apply (k_zero K); try apply (k_refl K).
  - eapply (k_cos K); eauto.
  - apply r_mulf; [now apply (k_neg K) | now apply (k_sin K)].
  - now apply (k_sin K).
  - apply r_mulf; auto. eapply (k_cos K); eauto.
Qed.
Lemma asg_R h h' l : sx = false -> H2 h h' -> rm [sx; sy; false; sy; sy] [sx; sy] (arc_start_point_gradient (getA h l)) (arc_start_point_gradient (getA h' l)).
Proof.
  intros S H. pose proof (getA_R h h' l H) as G. unfold arc_start_point_gradient. destruct G; cbn [a_radius a_sa].
  constructor; [|constructor; [|constructor]]; cbn [map]; repeat apply MVcons; try apply MVnil;
    rewrite ?S, ?xorb_nilpotent, ?xorb_false_l, ?xorb_false_r; try apply (k_zero K); try apply (k_refl K).
  - eapply (k_cos K); eauto.
  - apply r_mulf; [now apply (k_neg K) | now apply (k_sin K)].
  - now apply (k_sin K).
  - apply r_mulf; auto. eapply (k_cos K); eauto.
Qed.
Lemma two s t x x' y y' : R s x x' -> R t y y' -> rv [s; t] [x; y] [x'; y'].
Proof. intros. repeat constructor; auto. Qed.
Lemma rv_signs ss ss' u v : ss = ss' -> rv ss u v -> rv ss' u v. Proof. now intros ->. Qed.
Lemma F2_two {T} (Q : T -> T -> Prop) a b a' b' : Q a a' -> Q b b' -> Forall2 Q [a; b] [a'; b'].
Proof. auto. Qed.
Ltac rows := apply F2_two; (split; [reflexivity|]); cbn [fst snd target_signs].
Ltac rw L := eapply rv_rowmul; [reflexivity | apply L | ].
Lemma rows_R h h' c c' : H2 h h' -> kR c c' -> Forall2 rowR (grad_rows h c) (grad_rows h' c').
Proof.
  intros H Hc. destruct Hc; cbn [grad_rows]; cbv zeta.
  - pose proof (sub_R _ _ _ _ (pdata_R h h' a H) (pdata_R h h' m H)) as E1.
    pose proof (sub_R _ _ _ _ (pdata_R h h' b H) (pdata_R h h' m H)) as E2. norms.
    set (d1 := v2sub (pdata h a) (pdata h m)) in *. set (d2 := v2sub (pdata h b) (pdata h m)) in *.
    set (d1' := v2sub (pdata h' a) (pdata h' m)) in *. set (d2' := v2sub (pdata h' b) (pdata h' m)) in *.
    destruct (_ || _); [constructor|]. pose proof (dot_R _ _ _ _ E1 E2) as ED. pose proof (k_div K _ _ _ (v2norm d1 *f v2norm d2) ED) as EC.
    pose proof (k_acos K _ _ (clamp_R _ _ EC)) as ET. rewrite <- (k_fin K _ _ _ ET). destruct (negb _); [constructor|].
    rewrite <- (k_sq K _ _ _ EC). destruct (negb _); [constructor|].
    set (gt := fneg f1 /f fsqrt _). set (th := facos (fclamp fm1 f1 (v2dot d1 d2 /f _))) in *. set (th' := facos (fclamp fm1 f1 (v2dot d1' d2' /f _))) in *.
    pose proof (k_sub K _ _ _ _ _ ET H0) as EL.
    assert (G1 : rv [sx; sy] (vadd (vscale ((th -f d) *f gt *f (f1 /f (v2norm d1 *f v2norm d2))) (v2row d2)) (vscale ((th -f d) *f gt *f (fneg (v2dot d1 d2) /f (v2norm d1 *f v2norm d1 *f v2norm d2))) (vdivs (v2row d1) (v2norm d1))))
      (vadd (vscale ((th' -f d') *f gt *f (f1 /f (v2norm d1 *f v2norm d2))) (v2row d2')) (vscale ((th' -f d') *f gt *f (fneg (v2dot d1' d2') /f (v2norm d1 *f v2norm d1 *f v2norm d2))) (vdivs (v2row d1') (v2norm d1))))).
    { apply rv_add; apply rv_scalef; try apply rv_divs; try now apply row_R.
      - repeat apply r_mulf; auto; apply K.
      - apply r_mulf; [apply r_mulf; auto; apply K|]. apply K. now apply K. }
    assert (G2 : rv [sx; sy] (vadd (vscale ((th -f d) *f gt *f (f1 /f (v2norm d1 *f v2norm d2))) (v2row d1)) (vscale ((th -f d) *f gt *f (fneg (v2dot d1 d2) /f (v2norm d1 *f v2norm d2 *f v2norm d2))) (vdivs (v2row d2) (v2norm d2))))
      (vadd (vscale ((th' -f d') *f gt *f (f1 /f (v2norm d1 *f v2norm d2))) (v2row d1')) (vscale ((th' -f d') *f gt *f (fneg (v2dot d1' d2') /f (v2norm d1 *f v2norm d2 *f v2norm d2))) (vdivs (v2row d2') (v2norm d2))))).
    { apply rv_add; apply rv_scalef; try apply rv_divs; try now apply row_R.
      - repeat apply r_mulf; auto; apply K.
      - apply r_mulf; [apply r_mulf; auto; apply K|]. apply K. now apply K. }
    constructor; [|constructor; [|constructor; [|constructor]]]; (split; [reflexivity|]); cbn [fst snd target_signs].
    + rw pg_R. exact G1.
    + rw pg_R. exact G2.
    + apply rv_sub; rw pg_R; [|exact G2]. now apply rv_neg.
  - pose proof (sub_R _ _ _ _ (aend_R h h' a H0 H) (pdata_R h h' p H)) as [E1 E2]. cbn [v2sub fst snd] in *. pose proof (two _ _ _ _ _ _ E1 E2) as E. rows.
    + eapply rv_rowmul; [reflexivity | now apply aeg_R | exact E].
    + rw pg_R. now apply rv_neg.
  - pose proof (sub_R _ _ _ _ (astart_R h h' a H0 H) (pdata_R h h' p H)) as [E1 E2]. cbn [v2sub fst snd] in *. pose proof (two _ _ _ _ _ _ E1 E2) as E. rows.
    + eapply rv_rowmul; [reflexivity | now apply asg_R | exact E].
    + rw pg_R. now apply rv_neg.
  - pose proof (sub_R _ _ _ _ (pdata_R h h' a H) (pdata_R h h' b H)) as E. norms. destruct (flt _ _); [constructor|].
    match goal with |- Forall2 _ [(_, rowmul _ ?u _); _] [(_, rowmul _ ?v _); _] => assert (G : rv [sx; sy] u v) end.
    { apply rv_scalef; [|apply rv_divs; now apply row_R]. apply r_mulf; [apply K; [apply K | assumption] | apply K]. }
    rows; rw pg_R; auto. now apply rv_neg.
  - destruct (sub_R _ _ _ _ (pdata_R h h' b H) (pdata_R h h' a H)) as [E _]. pose proof (k_sub K _ _ _ _ _ E H0) as E1.
    match goal with |- Forall2 _ [_; (_, rowmul _ ?u _)] [_; (_, rowmul _ ?v _)] => assert (G : rv [sx; sy] u v) end.
    { cbn [vscale map]. apply two; [|apply (r_mul _ sx (xorb sx sy)); [|apply K | now rewrite xx']]; repeat (apply r_fmul; try apply K); auto. }
    rows; rw pg_R; auto. now apply rv_neg.
  - destruct (sub_R _ _ _ _ (pdata_R h h' b H) (pdata_R h h' a H)) as [_ E]. pose proof (k_sub K _ _ _ _ _ E H0) as E1.
    match goal with |- Forall2 _ [_; (_, rowmul _ ?u _)] [_; (_, rowmul _ ?v _)] => assert (G : rv [sx; sy] u v) end.
    { cbn [vscale map]. apply two; [apply (r_mul _ sy (xorb sy sx)); [|apply K | now rewrite xx']|]; repeat (apply r_fmul; try apply K); auto. }
    rows; rw pg_R; auto. now apply rv_neg.
  - constructor; [|constructor]. split; [reflexivity|]. cbn [fst snd target_signs]. apply row_R. apply sub_R; [now apply pdata_R | now split].
  - pose proof (sub_R _ _ _ _ (end_R h h' a H) (start_R h h' a H)) as E1. pose proof (sub_R _ _ _ _ (end_R h h' b H) (start_R h h' b H)) as E2. norms.
    rows; rw ems_R; (apply rv_scalef; [apply K|]); apply rv_divs; try apply rv_neg; now apply row_R.
  - destruct (sub_R _ _ _ _ (end_R h h' l H) (start_R h h' l H)) as [_ E]. cbn [v2sub snd] in E. pose proof (two sx sy _ _ _ _ (k_zero K sx) E) as G.
    rows; [rw sg_R | rw eg_R]; auto. now apply rv_neg.
  - destruct (sub_R _ _ _ _ (end_R h h' l H) (start_R h h' l H)) as [E _]. cbn [v2sub fst] in E. pose proof (two sx sy _ _ _ _ E (k_zero K sy)) as G.
    rows; [rw sg_R | rw eg_R]; auto. now apply rv_neg.
  - pose proof (sub_R _ _ _ _ (end_R h h' a H) (start_R h h' a H)) as E1. pose proof (sub_R _ _ _ _ (end_R h h' b H) (start_R h h' b H)) as E2.
    pose proof (unit_R _ _ E1) as U1. pose proof (unit_R _ _ E2) as U2. rewrite <- (v2fin_E _ _ U1), <- (v2fin_E _ _ U2). destruct (negb _); [constructor|].
    destruct U1 as [X1 Y1], U2 as [X2 Y2].
    match goal with |- Forall2 _ [(_, rowmul _ (rowmul _ (vscale ?u _) _) _); _] [(_, rowmul _ (rowmul _ (vscale ?v _) _) _); _] => assert (G : R (xorb sx sy) u v) end.
    { apply K; eapply r_mul; eauto. apply xorb_comm. }
    rows; rw ems_R; (eapply rv_rowmul; [reflexivity | apply ng_R; assumption |]).
    + eapply rv_signs; [|apply (rv_scale _ [sy; sx] _ _ _ _ G); apply two; [exact Y2 | apply K; exact X2]]. simpl. now destruct sx, sy.
    + eapply rv_signs; [|apply (rv_scale _ [sy; sx] _ _ _ _ G); apply two; [apply K; exact Y1 | exact X1]]. simpl. now destruct sx, sy.
  - pose proof (sub_R _ _ _ _ (end_R h h' a H) (start_R h h' a H)) as E1. pose proof (sub_R _ _ _ _ (end_R h h' b H) (start_R h h' b H)) as E2.
    pose proof (unit_R _ _ E1) as U1. pose proof (unit_R _ _ E2) as U2. rewrite <- (v2fin_E _ _ U1), <- (v2fin_E _ _ U2). destruct (negb _); [constructor|].
    pose proof (dot_R _ _ _ _ U1 U2) as G.
    rows; rw ems_R; (eapply rv_rowmul; [reflexivity | apply ng_R; assumption |]); apply rv_scalef; auto; now apply row_R.
Qed.

(** ** Computations on the heap *)
Definition both {T} (Q : T -> T -> Prop) (r r' : heap F * out T) : Prop :=
  H2 (fst r) (fst r') /\ match snd r, snd r' with Val x, Val y => Q x y | Panic, Panic => True | _, _ => False end.
Definition rel {T} (m m' : M F T) (Q : T -> T -> Prop) : Prop := forall h h', H2 h h' -> both Q (m h) (m' h').
Lemma rel_ret {T} (x y : T) (Q : T -> T -> Prop) : Q x y -> rel (mret x) (mret y) Q.
Proof. intros Hx h h' H. split; auto. Qed.
Lemma rel_panic {T} (Q : T -> T -> Prop) : rel mpanic mpanic Q.
Proof. intros h h' H. split; simpl; auto. Qed.
Lemma both_bind {T U} (r r' : heap F * out T) (f f' : T -> M F U) Q Q' h h' (m m' : M F T) : m h = r -> m' h' = r' -> both Q r r' ->
  (forall x y, Q x y -> rel (f x) (f' y) Q') -> both Q' (mbind m f h) (mbind m' f' h').
Proof.
  intros E E' [B1 B2] Hf. unfold mbind. rewrite E, E'. destruct r as [g [x|]], r' as [g' [y|]]; simpl in *; try contradiction.
  - now apply Hf.
  - split; simpl; auto.
Qed.
Lemma rel_bind {T U} (m m' : M F T) (f f' : T -> M F U) Q Q' : rel m m' Q -> (forall x y, Q x y -> rel (f x) (f' y) Q') -> rel (mbind m f) (mbind m' f') Q'.
Proof. intros Hm Hf h h' H. eapply both_bind; [reflexivity | reflexivity | apply Hm; exact H | exact Hf]. Qed.
Definition tt2 (_ _ : unit) := True.
Lemma rel_assert b b' : b = b' -> rel (massert b) (massert b') tt2.
Proof. intros ->. destruct b'; [now apply rel_ret | apply rel_panic]. Qed.
Lemma rel_for {T} (Q : T -> T -> Prop) (l l' : list T) f f' : Forall2 Q l l' -> (forall x y, Q x y -> rel (f x) (f' y) tt2) -> rel (mfor l f) (mfor l' f') tt2.
Proof. intros Hl Hf. induction Hl; cbn [mfor]; [now apply rel_ret|]. eapply rel_bind; [now apply Hf|]. auto. Qed.
Lemma rel_write (g g' : heap F -> heap F) : (forall h h', H2 h h' -> H2 (g h) (g' h')) -> rel (fun h => (g h, Val tt)) (fun h => (g' h, Val tt)) tt2.
Proof. intros Hg h h' H. split; simpl; [now apply Hg | exact I]. Qed.
Lemma rv_firstn n ss u v : rv ss u v -> rv (firstn n ss) (firstn n u) (firstn n v).
Proof. intros H. revert n. induction H; intros [|n]; simpl; constructor; auto. Qed.
Lemma rv_skipn n ss u v : rv ss u v -> rv (skipn n ss) (skipn n u) (skipn n v).
Proof. intros H. revert n. induction H; intros [|n]; simpl; try constructor; auto. Qed.
Lemma padd_R l g g' : rv [sx; sy] g g' -> rel (Point2_add_to_gradient l g) (Point2_add_to_gradient l g') tt2.
Proof.
  intros Hg. eapply rel_bind; [apply rel_assert; eapply fin_eq; eauto|]. intros _ _ _. apply (rel_write (fun h => _) (fun h => _)). intros h h' H. apply setP_R; auto.
  pose proof (getP_R h h' l H) as G. destruct G. cbn [p_x p_y p_gx p_gy]. constructor; auto; apply K; auto; [apply (rv_nth _ _ _ 0 Hg) | apply (rv_nth _ _ _ 1 Hg)].
Qed.
Lemma pset_R l g g' : rv [sx; sy] g g' -> rel (Point2_set_data l g) (Point2_set_data l g') tt2.
Proof.
  intros Hg. destruct (rv_length _ _ _ Hg) as [E1 E2]. eapply rel_bind; [apply rel_assert; rewrite E1, E2; f_equal; eapply fin_eq; eauto|].
  intros _ _ _. apply (rel_write (fun h => _) (fun h => _)). intros h h' H. apply setP_R; auto.
  pose proof (getP_R h h' l H) as G. destruct G. cbn [p_x p_y p_gx p_gy]. constructor; auto; [apply (rv_nth _ _ _ 0 Hg) | apply (rv_nth _ _ _ 1 Hg)].
Qed.
Lemma ladd_R l g g' : rv [sx; sy; sx; sy] g g' -> rel (Line_add_to_gradient l g) (Line_add_to_gradient l g') tt2.
Proof.
  intros Hg. eapply rel_bind; [apply rel_assert; eapply fin_eq; eauto|]. intros _ _ _ h h' H. rewrite (getL_R h h' l H).
  refine (rel_bind _ _ _ _ tt2 tt2 (padd_R _ _ _ _) (fun _ _ _ => padd_R _ _ _ _) h h' H).
  - apply (rv_firstn 2 _ _ _ Hg).
  - apply (rv_firstn 2 _ _ _ (rv_skipn 2 _ _ _ Hg)).
Qed.
Lemma aadd_R l g g' : rv [sx; sy; false; sy; sy] g g' -> rel (Arc_add_to_gradient l g) (Arc_add_to_gradient l g') tt2.
Proof.
  intros Hg. eapply rel_bind; [apply rel_assert; eapply fin_eq; eauto|]. intros _ _ _ h h' H.
  assert (E : a_center (getA h' l) = a_center (getA h l)) by (destruct (getA_R h h' l H); reflexivity). rewrite E.
  refine (rel_bind _ _ _ _ tt2 tt2 (padd_R _ _ _ _) (fun _ _ _ => _) h h' H); [apply (rv_firstn 2 _ _ _ Hg)|].
  apply (rel_write (fun h => _) (fun h => _)). clear h h' H E. intros h h' H. apply setA_R; auto. pose proof (getA_R h h' l H) as G. destruct G. cbn [a_center a_radius a_sa a_ea a_gr a_gsa a_gea a_cw].
  constructor; auto; apply K; auto; [apply (rv_nth _ _ _ 2 Hg) | apply (rv_nth _ _ _ 3 Hg) | apply (rv_nth _ _ _ 4 Hg)].
Qed.
Lemma aset_R l g g' : rv [false; sy; sy] g g' -> rel (Arc_set_data l g) (Arc_set_data l g') tt2.
Proof.
  intros Hg. destruct (rv_length _ _ _ Hg) as [E1 E2]. eapply rel_bind; [apply rel_assert; rewrite E1, E2; f_equal; eapply fin_eq; eauto|].
  intros _ _ _. apply (rel_write (fun h => _) (fun h => _)). intros h h' H. apply setA_R; auto. pose proof (getA_R h h' l H) as G. destruct G. cbn [a_center a_radius a_sa a_ea a_gr a_gsa a_gea a_cw].
  constructor; auto; [apply (rv_nth _ _ _ 0 Hg) | apply (rv_nth _ _ _ 1 Hg) | apply (rv_nth _ _ _ 2 Hg)].
Qed.
Lemma cset_R l g g' : rv [false] g g' -> rel (Circle_set_data l g) (Circle_set_data l g') tt2.
Proof.
  intros Hg. destruct (rv_length _ _ _ Hg) as [E1 E2]. eapply rel_bind; [apply rel_assert; rewrite E1, E2; f_equal; eapply fin_eq; eauto|].
  intros _ _ _. apply (rel_write (fun h => _) (fun h => _)). intros h h' H. apply setC_R; auto. pose proof (getC_R h h' l H) as G. destruct G. cbn [c_center c_radius c_gr].
  constructor; auto. apply (rv_nth _ _ _ 0 Hg).
Qed.
Notation csg := (cell_signs sx sy).
Lemma prim_set_R c d d' : rv (csg c) d d' -> rel (prim_set_data c d) (prim_set_data c d') tt2.
Proof. intros Hd. destruct c; cbn [prim_set_data]; [now apply pset_R | now apply rel_ret | now apply aset_R | now apply cset_R]. Qed.
Lemma zero_R h h' c : H2 h h' -> H2 (prim_zero h c) (prim_zero h' c).
Proof.
  intros H. destruct c; cbn [prim_zero]; auto.
  - apply setP_R; auto. pose proof (getP_R h h' l H) as G. destruct G. constructor; auto; apply K.
  - apply setA_R; auto. pose proof (getA_R h h' l H) as G. destruct G. constructor; auto; apply K.
  - apply setC_R; auto. pose proof (getC_R h h' l H) as G. destruct G. constructor; auto; apply K.
Qed.
Lemma data_R h h' c : H2 h h' -> rv (csg c) (prim_data h c) (prim_data h' c).
Proof.
  intros H. destruct c; cbn [prim_data cell_signs].
  - pose proof (getP_R h h' l H) as G. destruct G. repeat constructor; auto.
  - constructor.
  - pose proof (getA_R h h' l H) as G. destruct G. repeat constructor; auto.
  - pose proof (getC_R h h' l H) as G. destruct G. repeat constructor; auto.
Qed.
Lemma grad_R h h' c : H2 h h' -> rv (csg c) (prim_grad h c) (prim_grad h' c).
Proof.
  intros H. destruct c; cbn [prim_grad cell_signs].
  - pose proof (getP_R h h' l H) as G. destruct G. repeat constructor; auto.
  - constructor.
  - pose proof (getA_R h h' l H) as G. destruct G. repeat constructor; auto.
  - pose proof (getC_R h h' l H) as G. destruct G. repeat constructor; auto.
Qed.
Lemma update_R c c' : kR c c' -> rel (update_gradient c) (update_gradient c') tt2.
Proof.
  intros Hc h h' H. apply (rel_for rowR (grad_rows h c) (grad_rows h' c')); auto; [now apply rows_R|]. intros [t g] [t' g'] [E Hg]. cbn [fst snd] in *. subst t'.
  destruct t; cbn [add_to_gradient target_signs] in *; [now apply padd_R | now apply ladd_R | now apply aadd_R].
Qed.
Lemma rv_app ss tt u u' v v' : rv ss u u' -> rv tt v v' -> rv (ss ++ tt) (u ++ v) (u' ++ v').
Proof. induction 1; simpl; auto. intros. constructor; auto. Qed.
Notation sg := (signs sx sy).
Lemma get_data_R h h' s : H2 h h' -> rv (sg s) (get_data h s) (get_data h' s).
Proof. intros H. unfold get_data, signs. induction (cells s); simpl; [constructor|]. apply rv_app; auto. now apply data_R. Qed.
Lemma stored_R h h' s : H2 h h' -> rv (sg s) (stored_gradient s h) (stored_gradient s h').
Proof. intros H. unfold stored_gradient, signs. induction (cells s); simpl; [constructor|]. apply rv_app; auto. now apply grad_R. Qed.
Lemma get_loss_R h h' s : H2 h h' -> R false (get_loss h s) (get_loss h' s).
Proof.
  intros H. unfold get_loss. assert (G : forall l a a', R false a a' -> R false (fold_left (fun acc k => acc +f loss_value h (getK h k)) l a) (fold_left (fun acc k => acc +f loss_value h' (getK h' k)) l a')).
  { induction l as [|k l IH]; simpl; auto. intros a a' Ha. apply IH. apply K; auto. apply loss_R; auto. now apply getK_R. }
  apply G. apply K.
Qed.
Lemma zero_all_R s h h' : H2 h h' -> H2 (zero_all s h) (zero_all s h').
Proof. unfold zero_all. generalize (cells s). intros l. revert h h'. induction l; simpl; auto. intros. apply IHl. now apply zero_R. Qed.
Lemma F2_refl {T} (l : list T) : Forall2 eq l l. Proof. induction l; auto. Qed.
Lemma gradient_R s : rel (get_gradient s) (get_gradient s) (rv (sg s)).
Proof.
  intros h h' H. unfold get_gradient. refine (rel_bind _ _ _ _ tt2 (rv (sg s)) _ _ _ _ (zero_all_R s h h' H)).
  - apply (rel_for eq); [apply F2_refl|]. intros k k' <- g g' G. apply update_R; auto. now apply getK_R.
  - intros _ _ _ g g' G. refine (rel_bind _ _ _ _ tt2 _ (rel_assert _ _ _) _ g g' G).
    + induction (cells s) as [|c cs IH]; simpl; auto. f_equal; auto. eapply fin_eq. now apply grad_R.
    + intros _ _ _. apply rel_ret. now apply stored_R.
Qed.
Lemma len_data c h : length (prim_data h c) = length (csg c). Proof. now destruct c. Qed.
Lemma dofs_E h h' s : get_n_dofs h s = get_n_dofs h' s.
Proof. unfold get_n_dofs. generalize 0. induction (cells s); simpl; auto. intros n. now rewrite IHl, !len_data. Qed.
Lemma set_data_R s d d' : rv (sg s) d d' -> rel (set_data s d) (set_data s d') tt2.
Proof.
  intros Hd h h' H. unfold set_data. destruct (rv_length _ _ _ Hd) as [E1 E2].
  refine (rel_bind _ _ _ _ tt2 tt2 (rel_assert _ _ _) _ h h' H); [now rewrite E1, E2, (dofs_E h h')|]. intros _ _ _. clear h h' H E1 E2.
  unfold signs in Hd. revert d d' Hd. induction (cells s) as [|c cs IH]; intros d d' Hd; cbn [set_data_loop]; [now apply rel_ret|].
  intros h h' H. cbv zeta. rewrite (len_data c h), (len_data c h'). cbn [flat_map] in Hd.
  refine (rel_bind _ _ _ _ tt2 tt2 (prim_set_R _ _ _ _) _ h h' H).
  - pose proof (rv_firstn (length (csg c)) _ _ _ Hd) as G. now rewrite firstn_app, Nat.sub_diag, firstn_all, firstn_O, app_nil_r in G.
  - intros _ _ _. apply IH. pose proof (rv_skipn (length (csg c)) _ _ _ Hd) as G. now rewrite skipn_app, Nat.sub_diag, skipn_all, skipn_O in G.
Qed.

(** ** The solvers *)
Lemma ls_loop_R s n : forall x0 x0' dir dir' loss loss' m m' curv curv' alpha, rv (sg s) x0 x0' -> rv (sg s) dir dir' ->
  R false loss loss' -> R false m m' -> R false curv curv' ->
  rel (ls_loop s x0 dir loss m curv n alpha) (ls_loop s x0' dir' loss' m' curv' n alpha) eq.
Proof.
  induction n as [|n IH]; intros; cbn [ls_loop]; [now apply rel_ret|].
  eapply rel_bind; [apply set_data_R; apply rv_add; auto; apply rv_scalef; auto; apply K|]. intros _ _ _ h h' HH. cbv zeta.
  rewrite <- (k_fle K _ _ _ _ (get_loss_R h h' s HH) (k_add K _ _ _ _ _ H1 (r_mulf _ _ _ _ _ (k_refl K (wolfe_c1 *f alpha)) H2))).
  destruct (fle _ _); [|now apply IH]. refine (rel_bind _ _ _ _ (rv (sg s)) eq (gradient_R s) _ h h' HH). intros g g' Hg. unfold fge.
  rewrite <- (k_fle K _ _ _ _ H3 (r_dot _ _ _ _ _ Hg H0)). destruct (fle _ _); [now apply rel_ret | now apply IH].
Qed.
Lemma wolfe_R s dir dir' g g' : rv (sg s) dir dir' -> rv (sg s) g g' -> rel (line_search_wolfe s dir g) (line_search_wolfe s dir' g') eq.
Proof.
  intros Hd Hg h h' H. unfold line_search_wolfe. cbv zeta. unfold fge. pose proof (r_dot _ _ _ _ _ Hg Hd) as E.
  rewrite <- (k_fle K _ _ _ _ (k_refl K f0) E). destruct (fle _ _).
  - split; simpl; auto.
  - apply ls_loop_R; auto; [now apply get_data_R | now apply get_loss_R|]. apply r_mulf; auto. apply K.
Qed.
Lemma gd_loop_R s P n : forall i g g' gn gn' l l', rv (sg s) g g' -> R false gn gn' -> R false l l' -> rel (gd_loop s P n i g gn l) (gd_loop s P n i g' gn' l') eq.
Proof.
  induction n as [|n IH]; intros; cbn [gd_loop]; [now apply rel_ret|].
  rewrite <- (k_flt K _ _ _ _ H0 (k_refl K (gd_min_grad P))), <- (k_flt K _ _ _ _ H1 (k_refl K (gd_min_loss P))).
  destruct (flt _ _); [now apply rel_ret|]. destruct (flt _ _); [now apply rel_ret|]. intros h h' HH.
  refine (rel_bind _ _ _ _ eq eq (wolfe_R _ _ _ _ _ _ _) _ h h' HH); auto; [now apply rv_neg|]. intros r r' <-. destruct r as [alpha|e]; [|now apply rel_ret].
  eapply rel_bind. { apply set_data_R. apply rv_axpy; try apply K; [now apply rv_neg | now apply get_data_R]. }
  intros _ _ _ k k' HK. refine (rel_bind _ _ _ _ (rv (sg s)) eq (gradient_R s) _ k k' HK). intros q q' Hq. apply IH; auto; [eapply r_norm; eauto | now apply get_loss_R].
Qed.
Lemma gd_run_R s P : rel (gd_run s P) (gd_run s P) eq.
Proof.
  unfold gd_run. eapply rel_bind; [apply gradient_R|]. intros g g' Hg h h' H. apply gd_loop_R; auto; [eapply r_norm; eauto | now apply get_loss_R].
Qed.
Lemma sdoty_E ss u u' v v' : rv ss u u' -> rv ss v v' -> bfgs_sdoty u v = bfgs_sdoty u' v'.
Proof.
  intros Hu Hv. unfold bfgs_sdoty. cbv zeta. pose proof (r_dot _ _ _ _ _ Hu Hv) as E. rewrite <- (k_abs K _ _ _ E).
  destruct (flt _ _) eqn:T; [now apply (k_shift K) | now apply (k_nz K)].
Qed.
Lemma bfgs_update_R ss m m' u u' v v' d : rm ss ss m m' -> rv ss u u' -> rv ss v v' -> rm ss ss (bfgs_update m u v d) (bfgs_update m' u' v' d).
Proof.
  intros Hm Hu Hv. unfold bfgs_update. cbv zeta. pose proof (rv_mvec _ _ _ _ _ _ Hm Hv) as E.
  apply rm_ger; auto; try apply K. apply rm_ger; auto; try apply K. apply rm_ger; auto; try apply K. apply K; [apply K|]. eapply r_dot; eauto.
Qed.
Lemma bfgs_loop_R s P n : forall i x x' m m' b, rv (sg s) x x' -> rm (sg s) (sg s) m m' -> rel (bfgs_loop s P n i x m b) (bfgs_loop s P n i x' m' b) eq.
Proof.
  induction n as [|n IH]; intros; cbn [bfgs_loop]; [now apply rel_ret|]. destruct (negb _); [now apply rel_ret|]. intros h h' HH.
  rewrite <- (k_flt K _ _ _ _ (get_loss_R h h' s HH) (k_refl K (bf_min_loss P))). destruct (flt _ _); [split; simpl; auto|].
  refine (rel_bind _ _ _ _ (rv (sg s)) eq (gradient_R s) _ h h' HH). intros g g' Hg. rewrite <- (fin_eq _ _ _ Hg), <- (norm_inf_eq _ _ _ Hg).
  destruct (negb _); [now apply rel_ret|]. destruct (flt _ _); [now apply rel_ret|]. cbv zeta.
  pose proof (rv_mvec _ _ _ _ _ _ (rm_neg _ _ _ _ H0) Hg) as Ep. rewrite <- (fin_eq _ _ _ Ep). destruct (negb _); [now apply rel_ret|].
  eapply rel_bind; [now apply wolfe_R|]. intros r r' <-. destruct r as [alpha|[]]; [|now apply rel_ret|].
  - assert (Es : rv (sg s) (vscale alpha (mvec (mneg m) g)) (vscale alpha (mvec (mneg m') g'))) by (apply rv_scalef; auto; apply K).
    eapply rel_bind; [apply set_data_R; now apply rv_add|]. intros _ _ _. eapply rel_bind; [apply gradient_R|]. intros q q' Hq.
    pose proof (rv_sub _ _ _ _ _ Hq Hg) as Ey. rewrite <- (sdoty_E _ _ _ _ _ Es Ey). apply IH; [now apply rv_add | now apply bfgs_update_R].
  - destruct b; [now apply rel_ret|]. destruct (rv_length _ _ _ H) as [E1 E2]. apply IH; auto. rewrite E1, E2. now apply rm_ident.
Qed.
Lemma bfgs_run_R s P : rel (bfgs_run s P) (bfgs_run s P) eq.
Proof.
  intros h h' H. unfold bfgs_run. cbv zeta. pose proof (get_data_R h h' s H) as E. apply bfgs_loop_R; auto.
  destruct (rv_length _ _ _ E) as [E1 E2]. rewrite E1, E2. now apply rm_ident.
Qed.
Lemma F2_rv u u' : Forall2 (R false) u u' -> rv (map (fun _ => false) u) u u'.
Proof. induction 1; simpl; constructor; auto. Qed.
Definition frame := map (fun _ : loc => false).
Lemma losses_R h h' s : H2 h h' -> rv (frame (s_cons s)) (get_loss_per_constraint h s) (get_loss_per_constraint h' s).
Proof. intros H. unfold get_loss_per_constraint. induction (s_cons s); simpl; constructor; auto. apply loss_R; auto. now apply getK_R. Qed.
Lemma jacobian_R s : rel (get_jacobian s) (get_jacobian s) (rm (sg s) (frame (s_cons s))).
Proof.
  unfold get_jacobian. induction (s_cons s) as [|k ks IH]; cbn [jacobian_rows]; [apply rel_ret; constructor|].
  intros h h' H. refine (rel_bind _ _ _ _ tt2 _ _ _ _ _ (zero_all_R s h h' H)).
  - intros g g' G. apply update_R; auto. now apply getK_R.
  - intros _ _ _ g g' G. refine (rel_bind _ _ _ _ _ _ IH _ g g' G). intros rs rs' Hr. apply rel_ret. simpl. constructor; auto. rewrite map_xf. now apply stored_R.
Qed.
Lemma F2_sum u u' : rv (map (fun _ => false) u) u u' -> R false (vsum u) (vsum u').
Proof.
  intros H. unfold vsum. apply F2_fold; [|apply K]. revert u' H. induction u; intros ? H; simpl in H; inversion H; subst; constructor; auto.
Qed.
Variable pinv : mat F -> F -> pinv_res (mat F).
Hypothesis HP : forall ss m m' eps, rm ss ss m m' ->
    match pinv m eps, pinv m' eps with
    | PInv q, PInv q' => rm ss ss q q' | PErr, PErr => True | PPanic, PPanic => True | _, _ => False
    end.
Lemma nls_R s normal ml eps step n : (forall k m m', k = length (sg s) -> rm (sg s) (frame (s_cons s)) m m' -> rm (sg s) (sg s) (normal k m) (normal k m')) ->
  forall i l l', R false l l' -> rel (nls_loop pinv s normal ml eps step n i l) (nls_loop pinv s normal ml eps step n i l') eq.
Proof.
  intros HN. induction n as [|n IH]; intros i l l' Hl; cbn [nls_loop]; [now apply rel_ret|]. unfold fgt.
  rewrite <- (k_flt K _ _ _ _ (k_refl K ml) Hl). destruct (negb _); [now apply rel_ret|]. intros h h' H. cbv zeta.
  pose proof (get_data_R h h' s H) as Ed. pose proof (losses_R h h' s H) as El. destruct (rv_length _ _ _ Ed) as [D1 D2]. destruct (rv_length _ _ _ El) as [L1 L2].
  refine (rel_bind _ _ _ _ _ eq (jacobian_R s) _ h h' H). intros j j' Hj. unfold nls_step. rewrite D1, D2.
  pose proof (HP _ _ _ eps (HN _ _ _ eq_refl Hj)) as Hq. destruct (pinv _ _) as [q| |], (pinv _ _) as [q'| |]; try contradiction; [|now apply rel_ret | apply rel_panic].
  eapply rel_bind.
  - apply set_data_R. apply rv_sub; [exact Ed|]. apply rv_muls. rewrite L1, L2. eapply rv_mvec; [|exact El].
    eapply rm_mul; [reflexivity | exact Hq |]. now apply rm_trans.
  - intros _ _ _. apply IH. apply F2_sum. unfold get_loss_per_constraint at 1. rewrite map_map. exact El.
Qed.
Lemma gn_run_R s P : rel (gn_run pinv s P) (gn_run pinv s P) eq.
Proof.
  apply nls_R; [|apply K]. intros k m m' -> Hm. unfold gn_normal. eapply rm_mul; [reflexivity | | exact Hm]. now apply rm_trans.
Qed.
Lemma lm_run_R s P : rel (lm_run pinv s P) (lm_run pinv s P) eq.
Proof.
  apply nls_R; [|apply K]. intros k m m' -> Hm. unfold lm_normal. apply rm_add; [|apply rm_scale; now apply rm_ident].
  eapply rm_mul; [reflexivity | | exact Hm]. now apply rm_trans.
Qed.
Lemma solve_R sol s : rel (solve pinv sol s) (solve pinv sol s) eq.
Proof.
  destruct sol; cbn [solve].
  - eapply rel_bind; [apply gd_run_R|]. intros r r' <-. now apply rel_ret.
  - eapply rel_bind; [apply bfgs_run_R|]. intros r r' <-. now apply rel_ret.
  - eapply rel_bind; [apply gn_run_R|]. intros r r' <-. now apply rel_ret.
  - eapply rel_bind; [apply lm_run_R|]. intros r r' <-. now apply rel_ret.
Qed.
End Rel.
