(** * Exact arithmetic keeps a change of unit; lemmas for C93 *)
From Coq Require Import List ZArith NArith Bool Reals Lra Lia.
From Verif Require Import Arith Vec Prim Cons Sketch Solve ArithR ScaleSpec ScaleRel.
Import ListNotations.

Section Exact.
Variable l : R.
Hypothesis L : (0 < l)%R.
Definition times (n : nat) (x x' : xR) : Prop := x' = xmul (Fin (l ^ n)%R) x.
Lemma pw n : (0 < l ^ n)%R. Proof. now apply pow_lt. Qed.
Lemma sgn_pos a x : (0 < a)%R -> sgn_inf (a * x) = sgn_inf x.
Proof.
  intros P. unfold sgn_inf. destruct (Rlt_dec 0 (a * x)), (Rlt_dec 0 x); auto; try (exfalso; nra).
  destruct (Rlt_dec (a * x) 0), (Rlt_dec x 0); auto; exfalso; nra.
Qed.
Lemma sgn_p a : (0 < a)%R -> sgn_inf a = PInf. Proof. intros. unfold sgn_inf. destruct (Rlt_dec 0 a); auto. lra. Qed.
Lemma sgn_n a : (0 < a)%R -> sgn_inf (- a) = NInf. Proof. intros. unfold sgn_inf. destruct (Rlt_dec 0 (- a)); [lra|]. destruct (Rlt_dec (- a) 0); auto. lra. Qed.
Definition sm (a : R) (x : xR) : xR := match x with Fin r => Fin (a * r) | y => y end.
Lemma xmul_sm a x : (0 < a)%R -> xmul (Fin a) x = sm a x.
Proof. intros P. destruct x; simpl; auto; [now apply sgn_p | now apply sgn_n]. Qed.
Lemma times_sm n x x' : times n x x' <-> x' = sm (l ^ n) x.
Proof. unfold times. now rewrite (xmul_sm _ _ (pw n)). Qed.
Lemma ltb_sm a x y : (0 < a)%R -> Rltb (a * x) (a * y) = Rltb x y.
Proof. intros P. unfold Rltb. destruct (Rlt_dec x y), (Rlt_dec (a * x) (a * y)); auto; exfalso; nra. Qed.
Lemma leb_sm a x y : (0 < a)%R -> Rleb (a * x) (a * y) = Rleb x y.
Proof. intros P. unfold Rleb. destruct (Rle_dec x y), (Rle_dec (a * x) (a * y)); auto; exfalso; nra. Qed.
Theorem exact_scales : scales times.
Proof.
  constructor.
  - intros [x| | |]; apply times_sm; simpl; auto. f_equal. lra.
  - intros n. apply times_sm. simpl. f_equal. lra.
  - intros n x y x' y' Hx%times_sm Hy%times_sm. subst. apply times_sm. destruct x, y; simpl; auto. f_equal. lra.
  - intros n x y x' y' Hx%times_sm Hy%times_sm. subst. apply times_sm. destruct x, y; simpl; auto. f_equal. lra.
  - intros n x x' Hx%times_sm. subst. apply times_sm. destruct x; simpl; auto. f_equal. lra.
  - intros n m x y x' y' Hx%times_sm Hy%times_sm. subst. apply times_sm. pose proof (pw n). pose proof (pw m).
    destruct x as [x| | |], y as [y| | |]; simpl; auto.
    + f_equal. rewrite pow_add. lra.
    + rewrite sgn_pos by auto. unfold sgn_inf. destruct (Rlt_dec 0 x); auto. destruct (Rlt_dec x 0); auto.
    + replace (- (l ^ n * x))%R with (l ^ n * - x)%R by lra. rewrite sgn_pos by auto. unfold sgn_inf. destruct (Rlt_dec 0 (- x)); auto. destruct (Rlt_dec (- x) 0); auto.
    + rewrite sgn_pos by auto. unfold sgn_inf. destruct (Rlt_dec 0 y); auto. destruct (Rlt_dec y 0); auto.
    + replace (- (l ^ m * y))%R with (l ^ m * - y)%R by lra. rewrite sgn_pos by auto. unfold sgn_inf. destruct (Rlt_dec 0 (- y)); auto. destruct (Rlt_dec (- y) 0); auto.
  - intros x y x' y' Hx%times_sm Hy%times_sm. subst. apply times_sm. rewrite !pow_1. simpl (l ^ 0)%R.
    destruct x as [x| | |], y as [y| | |]; simpl; auto.
    + destruct (Req_EM_T y 0) as [->|N].
      * destruct (Req_EM_T (l * 0) 0) as [_|N]; [|exfalso; lra]. rewrite sgn_pos by auto. unfold sgn_inf. destruct (Rlt_dec 0 x); auto. destruct (Rlt_dec x 0); auto.
      * destruct (Req_EM_T (l * y) 0); [exfalso; nra|]. simpl. f_equal. field. split; lra.
    + f_equal. lra.
    + f_equal. lra.
    + destruct (Rlt_dec y 0), (Rlt_dec (l * y) 0); auto; exfalso; nra.
    + destruct (Rlt_dec y 0), (Rlt_dec (l * y) 0); auto; exfalso; nra.
  - intros x x' Hx%times_sm. subst. apply times_sm. rewrite pow_1. destruct x as [x| | |]; simpl; auto.
    replace (l * (l * 1) * x)%R with ((l * l) * x)%R by lra. assert (0 < l * l)%R by nra.
    destruct (Rlt_dec x 0) as [N|N], (Rlt_dec (l * l * x) 0) as [N'|N']; simpl; auto; try apply Rnot_lt_le in N; try apply Rnot_lt_le in N'; try (exfalso; nra).
    f_equal. rewrite sqrt_mult by nra. rewrite sqrt_square; lra.
  - intros n x x' y y' Hx%times_sm Hy%times_sm. subst. destruct x, y; simpl; auto. symmetry. apply ltb_sm, pw.
  - intros n x x' y y' Hx%times_sm Hy%times_sm. subst. destruct x, y; simpl; auto. symmetry. apply leb_sm, pw.
  - intros n x x' Hx%times_sm. subst. destruct x; auto.
Qed.
Definition arcs_of (u v : list (arc xR)) : Prop := v = map (rescale_arc (Fin l)) u.
Notation changed := (unit_changed times arcs_of).
Lemma len_times x : times 1 x (len (Fin l) x). Proof. unfold times, len. now rewrite pow_1. Qed.
Lemma times_len x x' : times 1 x x' -> x' = len (Fin l) x. Proof. unfold times, len. now rewrite pow_1. Qed.
Lemma area_times x : times 2 x (area (Fin l) x). Proof. unfold times, area. simpl. now rewrite Rmult_1_r. Qed.
Lemma rescale_changed h : lengths_only h -> changed h (rescale (Fin l) h).
Proof.
  intros HO. repeat split; simpl.
  - clear. induction (h_pts h) as [|[] ?]; simpl; constructor; auto. constructor; apply len_times.
  - clear. induction (h_circs h) as [|[] ?]; simpl; constructor; auto. constructor; apply len_times.
  - unfold lengths_only in HO. induction (h_cons h) as [|c cs IH]; simpl; constructor; [|apply IH; intros; apply HO; now right].
    specialize (HO c (or_introl eq_refl)). destruct c; try destruct HO; constructor; apply len_times.
Qed.
Lemma changed_rescale h h' : changed h h' -> h' = rescale (Fin l) h.
Proof.
  intros (H1 & H2 & H3 & H4 & H5). destruct h as [p ln a c k], h' as [p' ln' a' c' k']. unfold rescale. simpl in *. subst ln'. unfold arcs_of in H3. subst a'. f_equal.
  - induction H1 as [|? ? ? ? []]; simpl; auto. f_equal; auto. unfold rescale_point. simpl. f_equal; now apply times_len.
  - induction H4 as [|? ? ? ? []]; simpl; auto. f_equal; auto. unfold rescale_circle. simpl. f_equal; now apply times_len.
  - induction H5 as [|? ? ? ? []]; simpl; f_equal; auto; f_equal; now apply times_len.
Qed.
Lemma C93_gd_lemma s P h : no_arcs s -> lengths_only h ->
  gd_run s (rescale_gd (Fin l) P) (rescale (Fin l) h) = (rescale (Fin l) (fst (gd_run s P h)), snd (gd_run s P h)).
Proof.
  intros HA HO. destruct (gd_run_R _ arcs_of exact_scales s HA P (rescale_gd (Fin l) P) eq_refl (area_times _) (len_times _) h _ (rescale_changed h HO)) as [B1 B2].
  apply changed_rescale in B1. destruct (gd_run s P h) as [g r], (gd_run s (rescale_gd (Fin l) P) (rescale (Fin l) h)) as [g' r']. simpl in *. subst g'.
  f_equal. destruct r, r'; try contradiction; now f_equal.
Qed.
Lemma F2_len v v' : Forall2 (times 1) v v' -> v' = map (len (Fin l)) v.
Proof. induction 1; simpl; auto. f_equal; auto. now apply times_len. Qed.
Lemma C93_read_lemma s h : no_arcs s -> lengths_only h ->
  get_data (rescale (Fin l) h) s = map (len (Fin l)) (get_data h s) /\
  get_loss (rescale (Fin l) h) s = area (Fin l) (get_loss h s) /\
  snd (get_gradient s (rescale (Fin l) h)) = match snd (get_gradient s h) with Val g => Val (map (len (Fin l)) g) | Panic => Panic end.
Proof.
  intros HA HO. pose proof (rescale_changed h HO) as H. split; [|split].
  - apply F2_len. now apply (get_data_R _ arcs_of exact_scales).
  - pose proof (get_loss_R _ arcs_of exact_scales s _ _ H) as G. rewrite G. symmetry. apply area_times.
  - destruct (gradient_R _ arcs_of exact_scales s HA _ _ H) as [_ B]. destruct (snd _), (snd _); try contradiction; auto. f_equal. now apply F2_len.
Qed.
End Exact.
