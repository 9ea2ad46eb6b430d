(** * A change of unit kept by the arithmetic is kept by gradient descent *)
From Coq Require Import List ZArith NArith Arith Bool Lia.
From Verif Require Import Arith Vec Prim Cons Sketch Solve ScaleSpec.
Import ListNotations.

(** [R n x x'] says that [x'] is [x] after the change if [x] is a number (n = 0), a length (n = 1) or an area (n = 2) *)
Section Scale.
Context {F : Type}.
Variable R : nat -> F -> F -> Prop.
Variable Ra : list (arc F) -> list (arc F) -> Prop.

Inductive sc_point : point F -> point F -> Prop := ScPoint x y gx gy x' y' gx' gy' :
  R 1 x x' -> R 1 y y' -> R 1 gx gx' -> R 1 gy gy' -> sc_point (mkPoint x y gx gy) (mkPoint x' y' gx' gy').
Inductive sc_circle : circle F -> circle F -> Prop := ScCircle c r g r' g' :
  R 1 r r' -> R 1 g g' -> sc_circle (mkCircle c r g) (mkCircle c r' g').
Inductive sc_con : con F -> con F -> Prop :=
| ScHDist a b d d' : R 1 d d' -> sc_con (HorizontalDistance a b d) (HorizontalDistance a b d')
| ScVDist a b d d' : R 1 d d' -> sc_con (VerticalDistance a b d) (VerticalDistance a b d')
| ScFix p x y x' y' : R 1 x x' -> R 1 y y' -> sc_con (FixPoint p x y) (FixPoint p x' y')
| ScEqual a b : sc_con (EqualLength a b) (EqualLength a b)
| ScHLine l : sc_con (HorizontalLine l) (HorizontalLine l)
| ScVLine l : sc_con (VerticalLine l) (VerticalLine l).

Definition unit_changed (h h' : heap F) : Prop :=
  Forall2 sc_point (h_pts h) (h_pts h') /\ h_lines h = h_lines h' /\ Ra (h_arcs h) (h_arcs h') /\
  Forall2 sc_circle (h_circs h) (h_circs h') /\ Forall2 sc_con (h_cons h) (h_cons h').
End Scale.

Section Rel.
Context {F : Type} {A : Arith F}.
Variable R : nat -> F -> F -> Prop.
Variable Ra : list (arc F) -> list (arc F) -> Prop.
Record scales : Prop := {
  z_refl : forall x, R 0 x x;
  z_zero : forall n, R n f0 f0;
  z_add : forall n x y x' y', R n x x' -> R n y y' -> R n (x +f y) (x' +f y');
  z_sub : forall n x y x' y', R n x x' -> R n y y' -> R n (x -f y) (x' -f y');
  z_neg : forall n x x', R n x x' -> R n (fneg x) (fneg x');
  z_mul : forall n m x y x' y', R n x x' -> R m y y' -> R (n + m) (x *f y) (x' *f y');
  z_div : forall x y x' y', R 1 x x' -> R 1 y y' -> R 0 (x /f y) (x' /f y');
  z_sqrt : forall x x', R 2 x x' -> R 1 (fsqrt x) (fsqrt x');
  z_flt : forall n x x' y y', R n x x' -> R n y y' -> flt x y = flt x' y';
  z_fle : forall n x x' y y', R n x x' -> R n y y' -> fle x y = fle x' y';
  z_fin : forall n x x', R n x x' -> ffin x = ffin x' }.
Hypothesis K : scales.

Notation rv n := (Forall2 (R n)).
Lemma s_mul0 n x y x' y' : R 0 x x' -> R n y y' -> R n (x *f y) (x' *f y').
Proof. intros. now apply (z_mul K 0 n). Qed.
Lemma s_mul1 n x y x' y' : R n x x' -> R 0 y y' -> R n (x *f y) (x' *f y').
Proof. intros. replace n with (n + 0) by lia. now apply (z_mul K n 0). Qed.

(** ** Vectors *)
Lemma F2_len {T U} (Q : T -> U -> Prop) u v : Forall2 Q u v -> length u = length v.
Proof. induction 1; simpl; auto. Qed.
Lemma rv_map2 (f : F -> F -> F) n m k u u' v v' : (forall x x' y y', R n x x' -> R m y y' -> R k (f x y) (f x' y')) ->
  rv n u u' -> rv m v v' -> rv k (map2 f u v) (map2 f u' v').
Proof. intros Hf Hu. revert v v'. induction Hu; intros ? ? Hv; inversion Hv; subst; simpl; constructor; auto. Qed.
Lemma rv_add n u u' v v' : rv n u u' -> rv n v v' -> rv n (vadd u v) (vadd u' v').
Proof. apply rv_map2. intros. now apply K. Qed.
Lemma rv_sub n u u' v v' : rv n u u' -> rv n v v' -> rv n (vsub u v) (vsub u' v').
Proof. apply rv_map2. intros. now apply K. Qed.
Lemma rv_axpy n a b u u' v v' : rv n u u' -> rv n v v' -> rv n (vaxpy a u b v) (vaxpy a u' b v').
Proof.
  intros Hu. revert v v'. induction Hu; intros ? ? Hv; inversion Hv; subst; simpl; constructor; auto.
  - apply K; apply s_mul0; auto; apply K.
  - now apply IHHu.
Qed.
Lemma rv_neg n u u' : rv n u u' -> rv n (vneg u) (vneg u').
Proof. induction 1; simpl; constructor; auto. now apply K. Qed.
Lemma rv_scale m n a a' u u' : R m a a' -> rv n u u' -> rv (m + n) (vscale a u) (vscale a' u').
Proof. intros Ha. induction 1; simpl; constructor; auto. now apply K. Qed.
Lemma rv_divs u u' d d' : rv 1 u u' -> R 1 d d' -> rv 0 (vdivs u d) (vdivs u' d').
Proof. intros H Hd. induction H; simpl; constructor; auto. now apply K. Qed.
Lemma F2_fold n u u' : rv n u u' -> forall a a', R n a a' -> R n (fold_left fadd u a) (fold_left fadd u' a').
Proof. induction 1; simpl; auto. intros. apply IHForall2. now apply K. Qed.
Lemma F2_lanes k s : forall p p', length p <= k -> rv s p p' -> forall a0 a1 a2 a3 a4 a5 a6 a7 b0 b1 b2 b3 b4 b5 b6 b7,
  R s a0 b0 -> R s a1 b1 -> R s a2 b2 -> R s a3 b3 -> R s a4 b4 -> R s a5 b5 -> R s a6 b6 -> R s a7 b7 ->
  R s (sum_lanes a0 a1 a2 a3 a4 a5 a6 a7 p) (sum_lanes b0 b1 b2 b3 b4 b5 b6 b7 p').
Proof.
  induction k as [|k IH]; intros p p' L Hp; intros.
  - destruct Hp; [|inversion L]. cbn [sum_lanes fold_left]. repeat apply K; auto.
  - do 8 (destruct Hp as [|? ? ? ? ? Hp]; [cbn [sum_lanes]; apply F2_fold; [repeat (constructor; auto) | repeat apply K; auto]|]). cbn [sum_lanes].
    apply IH; auto; try (apply K; auto). simpl in L. lia.
Qed.
Lemma r_dot u u' v v' : rv 1 u u' -> rv 1 v v' -> R 2 (vdot u v) (vdot u' v').
Proof. intros Hu Hv. apply (F2_lanes _ _ _ _ (le_n _)); try apply K. eapply rv_map2; eauto. intros. now apply (z_mul K 1 1). Qed.
Lemma r_norm u u' : rv 1 u u' -> R 1 (vnorm u) (vnorm u').
Proof. intros H. apply K. now apply r_dot. Qed.
Lemma fin_eq n u u' : rv n u u' -> all_finite u = all_finite u'.
Proof. induction 1 as [|x y u v Hx Hu IH]; simpl; auto. unfold all_finite in *. simpl. now rewrite (z_fin K _ _ _ Hx), IH. Qed.
Lemma r_sum1 n u u' : rv n u u' -> R n (sum1 u) (sum1 u').
Proof. destruct 1; simpl; [apply K|]. now apply F2_fold. Qed.
Lemma rv_nth n u u' j : rv n u u' -> R n (nth j u f0) (nth j u' f0).
Proof. intros H. revert j. induction H; intros [|j]; simpl; auto; apply K. Qed.
(** a row vector times a matrix of numbers *)
Lemma rv_rowmul n k r r' m : rv n r r' -> rv n (rowmul k r m) (rowmul k r' m).
Proof.
  intros Hr. unfold rowmul, mtrans. rewrite !map_map. induction (seq 0 k); simpl; constructor; auto. apply r_sum1.
  clear - K Hr. revert m. induction Hr; intros [|q m]; simpl; constructor; auto. apply s_mul1; auto. apply K.
Qed.

(** ** The heap *)
Notation H2 := (unit_changed R Ra).
Notation pR := (sc_point R).
Notation cR := (sc_circle R).
Notation kR := (sc_con R).
Lemma F2_nth {T} (Q : T -> T -> Prop) u v d i : Forall2 Q u v -> Q d d -> Q (nth i u d) (nth i v d).
Proof. intros H Hd. revert i. induction H; intros [|i]; simpl; auto. Qed.
Lemma F2_lset {T} (Q : T -> T -> Prop) u v i x y : Forall2 Q u v -> Q x y -> Forall2 Q (lset u i x) (lset v i y).
Proof. intros H Hd. revert i. induction H; intros [|i]; simpl; constructor; auto. Qed.
Lemma getP_R h h' l : H2 h h' -> pR (getP h l) (getP h' l).
Proof. intros (H & _). unfold getP; apply F2_nth; auto. constructor; apply K. Qed.
Lemma getC_R h h' l : H2 h h' -> cR (getC h l) (getC h' l).
Proof. intros (_ & _ & _ & H & _). unfold getC; apply F2_nth; auto. constructor; apply K. Qed.
Lemma getK_R h h' l : H2 h h' -> kR (getK h l) (getK h' l).
Proof. intros (_ & _ & _ & _ & H). unfold getK; apply F2_nth; auto. constructor. Qed.
Lemma getL_R h h' l : H2 h h' -> getL h' l = getL h l.
Proof. intros (_ & H & _). unfold getL. now rewrite H. Qed.
Lemma setP_R h h' l p p' : H2 h h' -> pR p p' -> H2 (setP h l p) (setP h' l p').
Proof. intros (H1 & HL & Ha & Hc & Hk) Hp. split; [now apply F2_lset|]. auto. Qed.
Lemma setC_R h h' l p p' : H2 h h' -> cR p p' -> H2 (setC h l p) (setC h' l p').
Proof. intros (H1 & HL & Ha & Hc & Hk) Hp. repeat (split; auto). now apply F2_lset. Qed.

(** ** Losses and gradient rows *)
Definition R2 (p q : F * F) := R 1 (fst p) (fst q) /\ R 1 (snd p) (snd q).
Lemma pdata_R h h' l : H2 h h' -> R2 (pdata h l) (pdata h' l).
Proof. intros H. apply (getP_R _ _ l) in H. unfold pdata, p_data. destruct H. now split. Qed.
Lemma start_R h h' l : H2 h h' -> R2 (line_start h l) (line_start h' l).
Proof. intros H. unfold line_start. rewrite (getL_R h h' l H). now apply pdata_R. Qed.
Lemma end_R h h' l : H2 h h' -> R2 (line_end h l) (line_end h' l).
Proof. intros H. unfold line_end. rewrite (getL_R h h' l H). now apply pdata_R. Qed.
Lemma sub_R p p' q q' : R2 p p' -> R2 q q' -> R2 (v2sub p q) (v2sub p' q').
Proof. intros [] []. split; now apply K. Qed.
Lemma norm2_R p p' : R2 p p' -> R 2 (v2norm2 p) (v2norm2 p').
Proof. intros []. apply K; now apply (z_mul K 1 1). Qed.
Lemma norm_R p p' : R2 p p' -> R 1 (v2norm p) (v2norm p').
Proof. intros H. apply K. now apply norm2_R. Qed.
Lemma row_R p p' : R2 p p' -> rv 1 (v2row p) (v2row p').
Proof. intros []. repeat constructor; auto. Qed.
Lemma half_R x x' : R 1 x x' -> R 2 (half_sq x) (half_sq x').
Proof. intros H. unfold half_sq. apply (z_mul K 1 1); auto. apply s_mul0; auto. apply K. Qed.
Lemma loss_R h h' c c' : H2 h h' -> kR c c' -> R 2 (loss_value h c) (loss_value h' c').
Proof.
  intros H Hc. destruct Hc; cbn [loss_value]; cbv zeta.
  - unfold current_hdistance. destruct (pdata_R h h' a H), (pdata_R h h' b H). apply half_R. apply K; [apply K; eassumption | assumption].
  - unfold current_vdistance. destruct (pdata_R h h' a H), (pdata_R h h' b H). apply half_R. apply K; [apply K; eassumption | assumption].
  - pose proof (sub_R _ _ _ _ (pdata_R h h' p H) (conj H0 H1 : R2 (x, y) (x', y'))) as E. apply norm2_R in E. apply s_mul0; auto. apply K.
  - pose proof (norm_R _ _ (sub_R _ _ _ _ (end_R h h' a H) (start_R h h' a H))) as E1. pose proof (norm_R _ _ (sub_R _ _ _ _ (end_R h h' b H) (start_R h h' b H))) as E2.
    apply half_R. now apply K.
  - destruct (end_R h h' l H), (start_R h h' l H). apply half_R. apply K; eassumption.
  - destruct (end_R h h' l H), (start_R h h' l H). apply half_R. apply K; eassumption.
Qed.
Definition rowR (tr tr' : gtarget * vec F) : Prop :=
  fst tr = fst tr' /\ rv 1 (snd tr) (snd tr') /\ match fst tr with GArc _ => False | _ => True end.
Lemma two x x' y y' : R 1 x x' -> R 1 y y' -> rv 1 [x; y] [x'; y'].
Proof. intros. repeat constructor; auto. Qed.
Lemma F2_two {T} (Q : T -> T -> Prop) a b a' b' : Q a a' -> Q b b' -> Forall2 Q [a; b] [a'; b'].
Proof. auto. Qed.
Ltac rows := apply F2_two; (split; [reflexivity|]); (split; [|exact I]); cbn [fst snd]; apply rv_rowmul.
Lemma rows_R h h' c c' : H2 h h' -> kR c c' -> Forall2 rowR (grad_rows h c) (grad_rows h' c').
Proof.
  intros H Hc. destruct Hc; cbn [grad_rows]; cbv zeta.
  - destruct (sub_R _ _ _ _ (pdata_R h h' b H) (pdata_R h h' a H)) as [E _]. pose proof (z_sub K _ _ _ _ _ E H0) as E1.
    match goal with |- Forall2 _ [_; (_, rowmul _ ?u _)] [_; (_, rowmul _ ?v _)] => assert (G : rv 1 u v) end.
    { cbn [vscale map]. apply two; repeat (apply s_mul1; try apply K); auto. }
    rows; auto. now apply rv_neg.
  - destruct (sub_R _ _ _ _ (pdata_R h h' b H) (pdata_R h h' a H)) as [_ E]. pose proof (z_sub K _ _ _ _ _ E H0) as E1.
    match goal with |- Forall2 _ [_; (_, rowmul _ ?u _)] [_; (_, rowmul _ ?v _)] => assert (G : rv 1 u v) end.
    { cbn [vscale map]. apply two; repeat (apply s_mul1; try apply K); auto. }
    rows; auto. now apply rv_neg.
  - constructor; [|constructor]. split; [reflexivity|]. split; [|exact I]. cbn [fst snd]. apply row_R. apply sub_R; [now apply pdata_R | now split].
  - pose proof (sub_R _ _ _ _ (end_R h h' a H) (start_R h h' a H)) as E1. pose proof (sub_R _ _ _ _ (end_R h h' b H) (start_R h h' b H)) as E2.
    pose proof (z_sub K _ _ _ _ _ (norm_R _ _ E1) (norm_R _ _ E2)) as G.
    rows; apply (rv_scale 1 0); auto; apply rv_divs; try (now apply norm_R); try apply rv_neg; now apply row_R.
  - destruct (sub_R _ _ _ _ (end_R h h' l H) (start_R h h' l H)) as [_ E]. cbn [v2sub snd] in E. pose proof (two _ _ _ _ (z_zero K 1) E) as G.
    rows; auto. now apply rv_neg.
  - destruct (sub_R _ _ _ _ (end_R h h' l H) (start_R h h' l H)) as [E _]. cbn [v2sub fst] in E. pose proof (two _ _ _ _ E (z_zero K 1)) as G.
    rows; auto. now apply rv_neg.
Qed.

(** ** Computations on the heap *)
Definition both {T} (Q : T -> T -> Prop) (r r' : heap F * out T) : Prop :=
  H2 (fst r) (fst r') /\ match snd r, snd r' with Val x, Val y => Q x y | Panic, Panic => True | _, _ => False end.
Definition rel {T} (m m' : M F T) (Q : T -> T -> Prop) : Prop := forall h h', H2 h h' -> both Q (m h) (m' h').
Lemma rel_ret {T} (x y : T) (Q : T -> T -> Prop) : Q x y -> rel (mret x) (mret y) Q.
Proof. intros Hx h h' H. split; auto. Qed.
Lemma rel_panic {T} (Q : T -> T -> Prop) : rel mpanic mpanic Q.
Proof. intros h h' H. split; simpl; auto. Qed.
Lemma both_bind {T U} (r r' : heap F * out T) (f f' : T -> M F U) Q Q' h h' (m m' : M F T) : m h = r -> m' h' = r' -> both Q r r' ->
  (forall x y, Q x y -> rel (f x) (f' y) Q') -> both Q' (mbind m f h) (mbind m' f' h').
Proof.
  intros E E' [B1 B2] Hf. unfold mbind. rewrite E, E'. destruct r as [g [x|]], r' as [g' [y|]]; simpl in *; try contradiction.
  - now apply Hf.
  - split; simpl; auto.
Qed.
Lemma rel_bind {T U} (m m' : M F T) (f f' : T -> M F U) Q Q' : rel m m' Q -> (forall x y, Q x y -> rel (f x) (f' y) Q') -> rel (mbind m f) (mbind m' f') Q'.
Proof. intros Hm Hf h h' H. eapply both_bind; [reflexivity | reflexivity | apply Hm; exact H | exact Hf]. Qed.
Definition tt2 (_ _ : unit) := True.
Lemma rel_assert b b' : b = b' -> rel (massert b) (massert b') tt2.
Proof. intros ->. destruct b'; [now apply rel_ret | apply rel_panic]. Qed.
Lemma rel_for {T} (Q : T -> T -> Prop) (l l' : list T) f f' : Forall2 Q l l' -> (forall x y, Q x y -> rel (f x) (f' y) tt2) -> rel (mfor l f) (mfor l' f') tt2.
Proof. intros Hl Hf. induction Hl; cbn [mfor]; [now apply rel_ret|]. eapply rel_bind; [now apply Hf|]. auto. Qed.
Lemma rel_write (g g' : heap F -> heap F) : (forall h h', H2 h h' -> H2 (g h) (g' h')) -> rel (fun h => (g h, Val tt)) (fun h => (g' h, Val tt)) tt2.
Proof. intros Hg h h' H. split; simpl; [now apply Hg | exact I]. Qed.
Lemma rv_firstn k n u v : rv n u v -> rv n (firstn k u) (firstn k v).
Proof. intros H. revert k. induction H; intros [|k]; simpl; constructor; auto. Qed.
Lemma rv_skipn k n u v : rv n u v -> rv n (skipn k u) (skipn k v).
Proof. intros H. revert k. induction H; intros [|k]; simpl; try constructor; auto. Qed.
Lemma padd_R l g g' : rv 1 g g' -> rel (Point2_add_to_gradient l g) (Point2_add_to_gradient l g') tt2.
Proof.
  intros Hg. eapply rel_bind; [apply rel_assert; eapply fin_eq; eauto|]. intros _ _ _. apply (rel_write (fun h => _) (fun h => _)). intros h h' H. apply setP_R; auto.
  pose proof (getP_R h h' l H) as G. destruct G. cbn [p_x p_y p_gx p_gy]. constructor; auto; apply K; auto; now apply rv_nth.
Qed.
Lemma pset_R l g g' : rv 1 g g' -> rel (Point2_set_data l g) (Point2_set_data l g') tt2.
Proof.
  intros Hg. eapply rel_bind; [apply rel_assert; rewrite (F2_len _ _ _ Hg); f_equal; eapply fin_eq; eauto|].
  intros _ _ _. apply (rel_write (fun h => _) (fun h => _)). intros h h' H. apply setP_R; auto.
  pose proof (getP_R h h' l H) as G. destruct G. cbn [p_x p_y p_gx p_gy]. constructor; auto; now apply rv_nth.
Qed.
Lemma ladd_R l g g' : rv 1 g g' -> rel (Line_add_to_gradient l g) (Line_add_to_gradient l g') tt2.
Proof.
  intros Hg. eapply rel_bind; [apply rel_assert; eapply fin_eq; eauto|]. intros _ _ _ h h' H. rewrite (getL_R h h' l H).
  refine (rel_bind _ _ _ _ tt2 tt2 (padd_R _ _ _ _) (fun _ _ _ => padd_R _ _ _ _) h h' H).
  - now apply (rv_firstn 2).
  - now apply (rv_firstn 2), rv_skipn.
Qed.
Lemma cset_R l g g' : rv 1 g g' -> rel (Circle_set_data l g) (Circle_set_data l g') tt2.
Proof.
  intros Hg. eapply rel_bind; [apply rel_assert; rewrite (F2_len _ _ _ Hg); f_equal; eapply fin_eq; eauto|].
  intros _ _ _. apply (rel_write (fun h => _) (fun h => _)). intros h h' H. apply setC_R; auto. pose proof (getC_R h h' l H) as G. destruct G. cbn [c_center c_radius c_gr].
  constructor; auto. now apply rv_nth.
Qed.
Definition noarc (c : pcell) : Prop := match c with PArc _ => False | _ => True end.
Lemma prim_set_R c d d' : noarc c -> rv 1 d d' -> rel (prim_set_data c d) (prim_set_data c d') tt2.
Proof. intros N Hd. destruct c; cbn [prim_set_data]; [now apply pset_R | now apply rel_ret | destruct N | now apply cset_R]. Qed.
Lemma zero_R h h' c : noarc c -> H2 h h' -> H2 (prim_zero h c) (prim_zero h' c).
Proof.
  intros N H. destruct c; cbn [prim_zero]; auto; try destruct N.
  - apply setP_R; auto. pose proof (getP_R h h' l H) as G. destruct G. constructor; auto; apply K.
  - apply setC_R; auto. pose proof (getC_R h h' l H) as G. destruct G. constructor; auto; apply K.
Qed.
Lemma data_R h h' c : noarc c -> H2 h h' -> rv 1 (prim_data h c) (prim_data h' c).
Proof.
  intros N H. destruct c; cbn [prim_data]; try destruct N.
  - pose proof (getP_R h h' l H) as G. destruct G. repeat constructor; auto.
  - constructor.
  - pose proof (getC_R h h' l H) as G. destruct G. repeat constructor; auto.
Qed.
Lemma grad_R h h' c : noarc c -> H2 h h' -> rv 1 (prim_grad h c) (prim_grad h' c).
Proof.
  intros N H. destruct c; cbn [prim_grad]; try destruct N.
  - pose proof (getP_R h h' l H) as G. destruct G. repeat constructor; auto.
  - constructor.
  - pose proof (getC_R h h' l H) as G. destruct G. repeat constructor; auto.
Qed.
Lemma update_R c c' : kR c c' -> rel (update_gradient c) (update_gradient c') tt2.
Proof.
  intros Hc h h' H. apply (rel_for rowR (grad_rows h c) (grad_rows h' c')); auto; [now apply rows_R|]. intros [t g] [t' g'] (E & Hg & N). cbn [fst snd] in *. subst t'.
  destruct t; cbn [add_to_gradient] in *; [now apply padd_R | now apply ladd_R | destruct N].
Qed.
Section OneSketch.
Variable s : sketch.
Hypothesis NA : no_arcs s.
Lemma cells_R (f : heap F -> pcell -> vec F) h h' : (forall c, noarc c -> rv 1 (f h c) (f h' c)) -> rv 1 (flat_map (f h) (cells s)) (flat_map (f h') (cells s)).
Proof. intros Hf. unfold no_arcs in NA. induction (cells s) as [|c cs IH]; simpl; [constructor|]. apply Forall2_app; [apply Hf, NA; now left | apply IH; intros; apply NA; now right]. Qed.
Lemma get_data_R h h' : H2 h h' -> rv 1 (get_data h s) (get_data h' s).
Proof. intros H. apply cells_R. intros. now apply data_R. Qed.
Lemma stored_R h h' : H2 h h' -> rv 1 (stored_gradient s h) (stored_gradient s h').
Proof. intros H. apply (cells_R prim_grad). intros. now apply grad_R. Qed.
Lemma get_loss_R h h' : H2 h h' -> R 2 (get_loss h s) (get_loss h' s).
Proof.
  intros H. unfold get_loss. assert (G : forall l a a', R 2 a a' -> R 2 (fold_left (fun acc k => acc +f loss_value h (getK h k)) l a) (fold_left (fun acc k => acc +f loss_value h' (getK h' k)) l a')).
  { induction l as [|k l IH]; simpl; auto. intros a a' Ha. apply IH. apply K; auto. apply loss_R; auto. now apply getK_R. }
  apply G. apply K.
Qed.
Lemma zero_all_R h h' : H2 h h' -> H2 (zero_all s h) (zero_all s h').
Proof.
  unfold zero_all, no_arcs in *. revert NA. generalize (cells s). intros l. revert h h'. induction l; simpl; auto. intros h h' NA H. apply IHl; [intros; apply NA; now right|]. apply zero_R; auto. apply (NA a). now left.
Qed.
Lemma F2_refl {T} (l : list T) : Forall2 eq l l. Proof. induction l; auto. Qed.
Lemma gradient_R : rel (get_gradient s) (get_gradient s) (rv 1).
Proof.
  intros h h' H. unfold get_gradient. refine (rel_bind _ _ _ _ tt2 (rv 1) _ _ _ _ (zero_all_R h h' H)).
  - apply (rel_for eq); [apply F2_refl|]. intros k k' <- g g' G. apply update_R; auto. now apply getK_R.
  - intros _ _ _ g g' G. refine (rel_bind _ _ _ _ tt2 _ (rel_assert _ _ _) _ g g' G).
    + unfold no_arcs in NA. induction (cells s) as [|c cs IH]; simpl; auto. f_equal; [|apply IH; intros; apply NA; now right]. eapply fin_eq. apply grad_R; auto. apply NA. now left.
    + intros _ _ _. apply rel_ret. now apply stored_R.
Qed.
Lemma len_data c (h h' : heap F) : length (prim_data h c) = length (prim_data h' c). Proof. now destruct c. Qed.
Lemma dofs_E h h' : get_n_dofs h s = get_n_dofs h' s.
Proof. unfold get_n_dofs. generalize 0. induction (cells s); simpl; auto. intros n. now rewrite IHl, (len_data a h h'). Qed.
Lemma set_data_R d d' : rv 1 d d' -> rel (set_data s d) (set_data s d') tt2.
Proof.
  intros Hd h h' H. unfold set_data.
  refine (rel_bind _ _ _ _ tt2 tt2 (rel_assert _ _ _) _ h h' H); [now rewrite (F2_len _ _ _ Hd), (dofs_E h h')|]. intros _ _ _. clear h h' H.
  unfold no_arcs in NA. revert d d' Hd. induction (cells s) as [|c cs IH]; intros d d' Hd; cbn [set_data_loop]; [now apply rel_ret|].
  intros h h' H. cbv zeta. rewrite (len_data c h h').
  refine (rel_bind _ _ _ _ tt2 tt2 (prim_set_R _ _ _ _ _) _ h h' H).
  - apply NA. now left.
  - now apply rv_firstn.
  - intros _ _ _. apply IH; [intros; apply NA; now right|]. now apply rv_skipn.
Qed.

(** ** The solver *)
Lemma ls_loop_R n : forall x0 x0' dir dir' loss loss' m m' curv curv' alpha, rv 1 x0 x0' -> rv 1 dir dir' ->
  R 2 loss loss' -> R 2 m m' -> R 2 curv curv' ->
  rel (ls_loop s x0 dir loss m curv n alpha) (ls_loop s x0' dir' loss' m' curv' n alpha) eq.
Proof.
  induction n as [|n IH]; intros; cbn [ls_loop]; [now apply rel_ret|].
  eapply rel_bind; [apply set_data_R; apply rv_add; auto; apply (rv_scale 0 1); auto; apply K|]. intros _ _ _ h h' HH. cbv zeta.
  rewrite <- (z_fle K _ _ _ _ _ (get_loss_R h h' HH) (z_add K _ _ _ _ _ H1 (s_mul0 _ _ _ _ _ (z_refl K (wolfe_c1 *f alpha)) H2))).
  destruct (fle _ _); [|now apply IH]. refine (rel_bind _ _ _ _ (rv 1) eq gradient_R _ h h' HH). intros g g' Hg. unfold fge.
  rewrite <- (z_fle K _ _ _ _ _ H3 (r_dot _ _ _ _ Hg H0)). destruct (fle _ _); [now apply rel_ret | now apply IH].
Qed.
Lemma wolfe_R dir dir' g g' : rv 1 dir dir' -> rv 1 g g' -> rel (line_search_wolfe s dir g) (line_search_wolfe s dir' g') eq.
Proof.
  intros Hd Hg h h' H. unfold line_search_wolfe. cbv zeta. unfold fge. pose proof (r_dot _ _ _ _ Hg Hd) as E.
  rewrite <- (z_fle K _ _ _ _ _ (z_zero K 2) E). destruct (fle _ _).
  - split; simpl; auto.
  - apply ls_loop_R; auto; [now apply get_data_R | now apply get_loss_R|]. apply s_mul0; auto. apply K.
Qed.
Section Run.
Variables P P' : gd_params F.
Hypotheses (HM : gd_max P = gd_max P') (HL : R 2 (gd_min_loss P) (gd_min_loss P')) (HG : R 1 (gd_min_grad P) (gd_min_grad P')).
Lemma gd_loop_R n : forall i g g' gn gn' l l', rv 1 g g' -> R 1 gn gn' -> R 2 l l' -> rel (gd_loop s P n i g gn l) (gd_loop s P' n i g' gn' l') eq.
Proof.
  induction n as [|n IH]; intros; cbn [gd_loop]; [now apply rel_ret|].
  rewrite <- (z_flt K _ _ _ _ _ H0 HG), <- (z_flt K _ _ _ _ _ H1 HL).
  destruct (flt _ _); [now apply rel_ret|]. destruct (flt _ _); [now apply rel_ret|]. intros h h' HH.
  refine (rel_bind _ _ _ _ eq eq (wolfe_R _ _ _ _ _ _) _ h h' HH); auto; [now apply rv_neg|]. intros r r' <-. destruct r as [alpha|e]; [|now apply rel_ret].
  eapply rel_bind. { apply set_data_R. apply rv_axpy; [now apply rv_neg | now apply get_data_R]. }
  intros _ _ _ k k' HK. refine (rel_bind _ _ _ _ (rv 1) eq gradient_R _ k k' HK). intros q q' Hq. apply IH; auto; [now apply r_norm | now apply get_loss_R].
Qed.
Lemma gd_run_R : rel (gd_run s P) (gd_run s P') eq.
Proof.
  unfold gd_run. rewrite <- HM. eapply rel_bind; [apply gradient_R|]. intros g g' Hg h h' H. apply gd_loop_R; auto; [now apply r_norm | now apply get_loss_R].
Qed.
End Run.
End OneSketch.
End Rel.
