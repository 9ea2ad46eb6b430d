(** * Binary64 numbers up to sign: the operations commute with negation, except for the sign of a zero *)
From Coq Require Import List ZArith NArith Arith Bool Lia Floats.SpecFloat.
From Verif Require Import Arith Vec Prim Cons Sketch Solve ArithF MirrorSpec MirrorRel.
Import ListNotations.

Lemma opp_opp x : SFopp (SFopp x) = x. Proof. destruct x as [s|s| |s m e]; simpl; now rewrite ?negb_involutive. Qed.
Lemma zero_opp x : is_zero x -> is_zero (SFopp x). Proof. intros [s ->]. now eexists. Qed.
Lemma sn_refl x : same_number x x. Proof. now left. Qed.
Lemma aux_opp s m e l : binary_round_aux prec64 emax64 (negb s) m e l = SFopp (binary_round_aux prec64 emax64 s m e l).
Proof.
  unfold binary_round_aux. destruct (shr_fexp _ _ _ _ _) as [mrs e1]. destruct (shr_fexp _ _ _ _ _) as [mrs2 e2].
  destruct (shr_m mrs2); simpl; auto. destruct (_ <=? _)%Z; reflexivity.
Qed.
Lemma round_opp s m e : binary_round prec64 emax64 (negb s) m e = SFopp (binary_round prec64 emax64 s m e).
Proof. unfold binary_round. destruct (shl_align _ _ _) as [mz ez]. apply aux_opp. Qed.
Lemma norm_opp m e s : same_number (binary_normalize prec64 emax64 (- m) e s) (SFopp (binary_normalize prec64 emax64 m e s)).
Proof.
  destruct m; simpl; unfold binary_normalize.
  - right. split; now eexists.
  - left. apply (round_opp false).
  - left. apply (round_opp true).
Qed.
Lemma cond_neg s z : cond_Zopp (negb s) z = (- cond_Zopp s z)%Z. Proof. destruct s; simpl; lia. Qed.

Lemma add_opp x y : same_number (SFadd prec64 emax64 (SFopp x) (SFopp y)) (SFopp (SFadd prec64 emax64 x y)).
Proof.
  destruct x as [s|s| |s m e], y as [t|t| |t n f]; simpl; try now left.
  - destruct s, t; simpl; (left; reflexivity) || (right; split; now eexists).
  - destruct s, t; simpl; now left.
  - rewrite !cond_neg, <- Z.opp_add_distr. apply norm_opp.
Qed.
Lemma sub_opp x y : same_number (SFsub prec64 emax64 (SFopp x) (SFopp y)) (SFopp (SFsub prec64 emax64 x y)).
Proof.
  destruct x as [s|s| |s m e], y as [t|t| |t n f]; simpl; rewrite ?negb_involutive; try now left.
  - destruct s, t; simpl; (left; reflexivity) || (right; split; now eexists).
  - destruct s, t; simpl; now left.
  - rewrite !cond_neg. match goal with |- same_number (binary_normalize _ _ ?a _ _) (SFopp (binary_normalize _ _ ?b _ _)) => replace a with (- b)%Z by lia end. apply norm_opp.
Qed.
Lemma mul_opp x y : SFmul prec64 emax64 (SFopp x) y = SFopp (SFmul prec64 emax64 x y).
Proof.
  destruct x as [s|s| |s m e], y as [t|t| |t n f]; simpl; rewrite <- ?negb_xorb_l; try reflexivity. apply aux_opp.
Qed.
Lemma mul_opp_r x y : SFmul prec64 emax64 x (SFopp y) = SFopp (SFmul prec64 emax64 x y).
Proof.
  destruct x as [s|s| |s m e], y as [t|t| |t n f]; simpl; rewrite <- ?negb_xorb_r; try reflexivity. apply aux_opp.
Qed.
Lemma div_opp x y : SFdiv prec64 emax64 (SFopp x) y = SFopp (SFdiv prec64 emax64 x y).
Proof.
  destruct x as [s|s| |s m e], y as [t|t| |t n f]; simpl; rewrite <- ?negb_xorb_l; try reflexivity.
  destruct (SFdiv_core_binary _ _ _ _ _ _) as [[q e'] l]. apply aux_opp.
Qed.

(** ** Zeros of either sign *)
Lemma sn_trans x y z : same_number x y -> same_number y z -> same_number x z.
Proof. intros [->|[A B]] [->|[C D]]; unfold same_number; auto. Qed.
Lemma sn_sym x y : same_number x y -> same_number y x. Proof. intros [->|[]]; unfold same_number; auto. Qed.
Lemma sn_opp x y : same_number x y -> same_number (SFopp x) (SFopp y).
Proof. intros [->|[A B]]; [now left | right; split; now apply zero_opp]. Qed.
Ltac zz := (left; reflexivity) || (right; split; now eexists).
Lemma add_sn x y x' y' : same_number x x' -> same_number y y' -> same_number (SFadd prec64 emax64 x y) (SFadd prec64 emax64 x' y').
Proof.
  intros [<-|[[s ->] [s' ->]]] [<-|[[t ->] [t' ->]]].
  - zz.
  - destruct x as [[]|s| |s m e], t, t'; simpl; zz.
  - destruct y as [[]|t| |t m e], s, s'; simpl; zz.
  - destruct s, s', t, t'; simpl; zz.
Qed.
Lemma sub_sn x y x' y' : same_number x x' -> same_number y y' -> same_number (SFsub prec64 emax64 x y) (SFsub prec64 emax64 x' y').
Proof.
  intros [<-|[[s ->] [s' ->]]] [<-|[[t ->] [t' ->]]].
  - zz.
  - destruct x as [[]|s| |s m e], t, t'; simpl; zz.
  - destruct y as [[]|t| |t m e], s, s'; simpl; zz.
  - destruct s, s', t, t'; simpl; zz.
Qed.
Lemma mul_sn x y x' y' : same_number x x' -> same_number y y' -> same_number (SFmul prec64 emax64 x y) (SFmul prec64 emax64 x' y').
Proof.
  intros [<-|[[s ->] [s' ->]]] [<-|[[t ->] [t' ->]]].
  - zz.
  - destruct x as [[]|s| |s m e]; simpl; zz.
  - destruct y as [[]|t| |t m e]; simpl; zz.
  - simpl; zz.
Qed.
Lemma div_sn x x' d : same_number x x' -> same_number (SFdiv prec64 emax64 x d) (SFdiv prec64 emax64 x' d).
Proof. intros [<-|[[s ->] [s' ->]]]; [zz|]. destruct d as [[]|t| |t m e]; simpl; zz. Qed.

(** ** The laws *)
Lemma flip_add s x y : same_number (SFadd prec64 emax64 (flip s x) (flip s y)) (flip s (SFadd prec64 emax64 x y)).
Proof. destruct s; [apply add_opp | now left]. Qed.
Lemma flip_sub s x y : same_number (SFsub prec64 emax64 (flip s x) (flip s y)) (flip s (SFsub prec64 emax64 x y)).
Proof. destruct s; [apply sub_opp | now left]. Qed.
Lemma flip_mul s t x y : SFmul prec64 emax64 (flip s x) (flip t y) = flip (xorb s t) (SFmul prec64 emax64 x y).
Proof. destruct s, t; simpl; rewrite ?mul_opp, ?mul_opp_r, ?opp_opp; reflexivity. Qed.
Lemma flip_div s x d : SFdiv prec64 emax64 (flip s x) d = flip s (SFdiv prec64 emax64 x d).
Proof. destruct s; [apply div_opp | reflexivity]. Qed.
Lemma signed_flip s x y : signed s x y <-> same_number (flip s x) y. Proof. reflexivity. Qed.
Lemma lit_pos_1em16 : exists m e, lit64 1 16 = S754_finite false m e. Proof. vm_compute. eauto. Qed.

Lemma kept64 (L : libm) : symmetric_libm L -> @kept spec_float (ArithF L) signed.
Proof.
  intros HL. constructor; unfold f0; cbn [fadd fsub fmul fdiv fneg fabs fsqrt fsin fcos facos flt fle ffin flit ArithF].
  - intros x. now left.
  - intros s. right. split; destruct s; now eexists.
  - intros s x y x' y' Hx Hy. apply signed_flip in Hx, Hy. apply signed_flip. eapply sn_trans; [apply sn_sym, flip_add|]. now apply add_sn.
  - intros s x y x' y' Hx Hy. apply signed_flip in Hx, Hy. apply signed_flip. eapply sn_trans; [apply sn_sym, flip_sub|]. now apply sub_sn.
  - intros s x x' Hx. apply sn_opp in Hx. apply signed_flip. destruct s; exact Hx.
  - intros s t x y x' y' Hx Hy. apply signed_flip. rewrite <- flip_mul. now apply mul_sn.
  - intros s x x' d Hx. apply signed_flip. rewrite <- flip_div. now apply div_sn.
  - intros s x x' Hx. apply signed_flip in Hx. assert (E : SFmul prec64 emax64 (flip s x) (flip s x) = SFmul prec64 emax64 x x) by (rewrite flip_mul; now destruct s).
    rewrite <- E. destruct Hx as [<-|[[t Ht] [t' ->]]]; auto; unfold flip in *; rewrite ?Ht; auto. now destruct t, t'.
  - intros s x x' Hx. apply signed_flip in Hx. assert (E : SFabs (flip s x) = SFabs x) by (destruct s; auto; now destruct x).
    rewrite <- E. destruct Hx as [<-|[[t Ht] [t' ->]]]; auto; unfold flip in *; rewrite ?Ht; auto.
  - intros x x' [<-|[[t ->] [t' ->]]]; [now left|]. right. split; now eexists.
  - intros x x' y y' [<-|[[s ->] [s' ->]]] [<-|[[t ->] [t' ->]]]; auto.
  - intros x x' y y' [<-|[[s ->] [s' ->]]] [<-|[[t ->] [t' ->]]]; auto.
  - intros s x x' Hx. apply signed_flip in Hx. assert (E : fin64 (flip s x) = fin64 x) by (destruct s; auto; now destruct x).
    rewrite <- E. destruct Hx as [<-|[[t Ht] [t' ->]]]; auto; unfold flip in *; rewrite ?Ht; auto.
  - intros d d' [<-|[[s ->] [s' ->]]] T; auto. destruct lit_pos_1em16 as (m & e & E). rewrite E in T. clear E. change (true = false) in T. discriminate T.
  - intros d d' [<-|[[s ->] [s' ->]]]; reflexivity.
  - intros s x x' Hx. now apply HL.
  - intros s x x' Hx. destruct (HL s x x' Hx) as (_ & H & _). exact H.
  - intros x x' Hx. destruct (HL false x x' Hx) as (_ & _ & H). now apply H.
Qed.

Section Runs.
Context (L : libm) (HL : symmetric_libm L).
Local Instance AF : Arith spec_float := ArithF L.
Notation mir := (mirrored signed).
Definition outcome (T : Type) := (heap spec_float * out T)%type.

Lemma C89_gd_lemma sx sy s P h h' : mir sx sy h h' ->
  snd (gd_run s P h) = snd (gd_run s P h') /\ mir sx sy (fst (gd_run s P h)) (fst (gd_run s P h')).
Proof.
  intros H. destruct (gd_run_R signed (kept64 L HL) sx sy s P h h' H) as [E1 E2]. split; auto.
  destruct (snd _), (snd _); try contradiction; now subst.
Qed.
Lemma C89_bfgs_lemma sx sy s P h h' : mir sx sy h h' ->
  snd (bfgs_run s P h) = snd (bfgs_run s P h') /\ mir sx sy (fst (bfgs_run s P h)) (fst (bfgs_run s P h')).
Proof.
  intros H. destruct (bfgs_run_R signed (kept64 L HL) sx sy s P h h' H) as [E1 E2]. split; auto.
  destruct (snd _), (snd _); try contradiction; now subst.
Qed.
Lemma C89_read_lemma sx sy s h h' : mir sx sy h h' ->
  same_number (get_loss h s) (get_loss h' s) /\ mir_vec signed (signs sx sy s) (get_data h s) (get_data h' s) /\
  match snd (get_gradient s h), snd (get_gradient s h') with
  | Val g, Val g' => mir_vec signed (signs sx sy s) g g' | Panic, Panic => True | _, _ => False
  end.
Proof.
  intros H. pose proof (kept64 L HL) as K. split; [exact (get_loss_R signed K sx sy h h' s H)|]. split; [now apply get_data_R|]. apply (gradient_R signed K sx sy s h h' H).
Qed.
Lemma C89_nls_lemma pinv sx sy s sol h h' : symmetric_pinv pinv -> mir sx sy h h' ->
  snd (solve pinv sol s h) = snd (solve pinv sol s h') /\ mir sx sy (fst (solve pinv sol s h)) (fst (solve pinv sol s h')).
Proof.
  intros HP H. destruct (solve_R signed (kept64 L HL) sx sy pinv HP sol s h h' H) as [E1 E2]. split; auto.
  destruct (snd _), (snd _); try contradiction; now subst.
Qed.
End Runs.

Lemma F2_map {T U} (Q : T -> U -> Prop) f l : (forall x, In x l -> Q x (f x)) -> Forall2 Q l (map f l).
Proof. induction l; simpl; constructor; auto. Qed.
Lemma signed_flip' s x : signed s x (flip s x). Proof. now left. Qed.
Lemma signed_same x : signed false x x. Proof. now left. Qed.
Lemma mirror_mirrored sx sy h : sx = false \/ no_arc_ties h -> mirrored signed sx sy h (mirror sx sy h).
Proof.
  intros N. split; [|split; [reflexivity|split; [|split]]].
  - apply F2_map. intros [x y gx gy] _. constructor; apply signed_flip'.
  - apply F2_map. intros [c r sa ea gr gsa gea cw] _. constructor; try apply signed_flip'; apply signed_same.
  - simpl. induction (h_circs h) as [|[c r g] l IH]; constructor; auto. constructor; apply signed_same.
  - apply F2_map. intros c Hc. destruct N as [N|N]; [|specialize (N c Hc)]; destruct c; try contradiction; simpl; constructor; try apply signed_flip'; try apply signed_same; exact N.
Qed.
