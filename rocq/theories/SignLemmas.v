(** * Losses are never negative, in exact and in binary64 arithmetic (proofs for C12) *)
From Coq Require Import List ZArith Bool Reals Lra Lia Floats.SpecFloat.
From Verif Require Import Arith Vec Prim Cons Sketch ArithR ArithF.
Import ListNotations.

(** not below zero (NaN allowed) *)
Definition not_negative {F} {A : Arith F} (x : F) : Prop := flt x f0 = false.

Section Gen.
Context {F : Type} {A : Arith F}.
Hypothesis N0 : not_negative f0.
Hypothesis Nsq : forall e, not_negative (e *f e).
Hypothesis Nhsq : forall e, not_negative (fhalf *f e *f e).
Hypothesis Nh : forall e, not_negative e -> not_negative (fhalf *f e).
Hypothesis Nadd : forall a b, not_negative a -> not_negative b -> not_negative (a +f b).
Lemma loss_nn h c : not_negative (loss_value h c).
Proof.
  destruct c; cbn [loss_value]; unfold half_sq, v2norm2, v2dot; try (apply Nhsq || (apply Nh, Nadd; apply Nsq));
  destruct (negb _); auto.
Qed.
Lemma get_loss_nn h s : not_negative (get_loss h s).
Proof.
  unfold get_loss. assert (H : forall l a, not_negative a ->
    not_negative (fold_left (fun acc k => acc +f loss_value h (getK h k)) l a)).
  { induction l as [|k l IH]; intros a Ha; simpl; auto. apply IH, Nadd; auto. apply loss_nn. }
  now apply H.
Qed.
End Gen.

(** ** Exact arithmetic *)
Section X.
Local Open Scope R_scope.
Lemma nn_R x : not_negative (F:=xR) x <-> match x with Fin r => 0 <= r | NInf => False | _ => True end.
Proof.
  unfold not_negative. destruct x; cbn; split; auto; try discriminate; try tauto.
  - unfold Rltb. destruct (Rlt_dec _ _); [discriminate|intros _; lra].
  - intros H. unfold Rltb. destruct (Rlt_dec _ _); auto; lra.
Qed.
Ltac sg := unfold sgn_inf; repeat (destruct (Rlt_dec _ _)); auto; try lra.
Lemma nn_sq_R (e : xR) : not_negative (e *f e).
Proof. apply nn_R. destruct e; cbn; auto. nra. Qed.
Lemma nn_hsq_R (e : xR) : not_negative (fhalf *f e *f e).
Proof.
  apply nn_R. destruct e; cbn; auto; [nra| |]; unfold sgn_inf; destruct (Rlt_dec _ _); cbn; auto;
  try (destruct (Rlt_dec _ _)); cbn; auto; lra.
Qed.
Lemma nn_h_R (e : xR) : not_negative e -> not_negative (fhalf *f e).
Proof.
  rewrite !nn_R. destruct e; cbn; try tauto; [nra|].
  intros _. unfold sgn_inf. destruct (Rlt_dec _ _); cbn; auto. destruct (Rlt_dec _ _); cbn; auto; lra.
Qed.
Lemma nn_add_R (a b : xR) : not_negative a -> not_negative b -> not_negative (a +f b).
Proof. rewrite !nn_R. destruct a, b; cbn; auto; lra || tauto. Qed.
Lemma nn_0_R : not_negative (F:=xR) f0.
Proof. apply nn_R. cbn. lra. Qed.
Lemma loss_nn_R (h : heap xR) c : not_negative (loss_value h c).
Proof. apply loss_nn; auto using nn_sq_R, nn_hsq_R, nn_h_R, nn_add_R, nn_0_R. Qed.
Lemma get_loss_nn_R (h : heap xR) s : not_negative (get_loss h s).
Proof. apply get_loss_nn; auto using nn_sq_R, nn_hsq_R, nn_h_R, nn_add_R, nn_0_R. Qed.
End X.

(** ** Binary64 *)
Section B.
Local Open Scope Z_scope.
(** NaN or of sign b *)
Definition signed (b : bool) (x : spec_float) : Prop :=
  match x with
  | S754_zero s | S754_infinity s | S754_finite s _ _ => s = b
  | S754_nan => True
  end.
Definition nn64 (x : spec_float) : Prop :=
  match x with S754_infinity true | S754_finite true _ _ => False | _ => True end.
Lemma nn_64 L x : not_negative (A:=ArithF L) x <-> nn64 x.
Proof.
  unfold not_negative. cbn. destruct x as [[]|[]| |[] m e]; cbn; split; intros; auto; try discriminate; try tauto.
Qed.
Lemma signed_nn x : signed false x -> nn64 x.
Proof. destruct x as [[]|[]| |[] m e]; cbn; auto; discriminate. Qed.
Lemma round_aux_signed sx m e l : signed sx (binary_round_aux prec64 emax64 sx m e l).
Proof.
  unfold binary_round_aux. destruct (shr_fexp _ _ _ _ _) as [m' e'].
  destruct (shr_fexp prec64 emax64 _ e' loc_Exact) as [m'' e'']. destruct (shr_m m''); cbn; auto.
  destruct (_ <=? _); cbn; auto.
Qed.
Lemma round_signed sx m e : signed sx (binary_round prec64 emax64 sx m e).
Proof. unfold binary_round. destruct (shl_align _ _ _). apply round_aux_signed. Qed.
Lemma mul_signed a b x y : signed a x -> signed b y -> signed (xorb a b) (SFmul prec64 emax64 x y).
Proof.
  destruct x as [s|s| |s m e], y as [s'|s'| |s' m' e']; cbn; intros; subst; auto. apply round_aux_signed.
Qed.
Lemma signed_self x : exists b, signed b x.
Proof. destruct x as [s|s| |s m e]; cbn; eauto. exists true; auto. Qed.
Lemma add_nn x y : nn64 x -> nn64 y -> nn64 (SFadd prec64 emax64 x y).
Proof.
  destruct x as [[]|[]| |[] m e], y as [[]|[]| |[] m' e']; intros Hx Hy; try destruct Hx; try destruct Hy; try exact I.
  cbn [SFadd]. unfold binary_normalize.
  match goal with |- nn64 (match ?z with _ => _ end) => assert (H : 0 < z) end.
  { cbn [cond_Zopp]. apply Z.add_pos_pos; apply Pos2Z.is_pos. }
  destruct (_ + _); try lia. apply signed_nn, round_signed.
Qed.
Lemma sq_nn L e : not_negative (A:=ArithF L) (fmul (Arith:=ArithF L) e e).
Proof.
  apply nn_64. destruct (signed_self e) as [b Hb]. apply signed_nn. rewrite <- (xorb_nilpotent b). now apply mul_signed.
Qed.
Lemma half_signed : signed false (lit64 5 1). Proof. reflexivity. Qed.
Lemma hsq_nn L e : not_negative (A:=ArithF L) (fmul (Arith:=ArithF L) (fmul (Arith:=ArithF L) (fhalf (A:=ArithF L)) e) e).
Proof.
  apply nn_64. destruct (signed_self e) as [b Hb]. apply signed_nn.
  rewrite <- (xorb_nilpotent b). apply mul_signed; auto. pose proof (mul_signed false b _ e half_signed Hb) as Q. rewrite xorb_false_l in Q. exact Q.
Qed.
Lemma h_nn L e : not_negative (A:=ArithF L) e -> not_negative (A:=ArithF L) (fmul (Arith:=ArithF L) (fhalf (A:=ArithF L)) e).
Proof.
  rewrite !nn_64. cbn [fmul ArithF]. change (fhalf (A:=ArithF L)) with (S754_finite false 4503599627370496 (-53)).
  destruct e as [[]|[]| |[] m e]; intros H; try destruct H; try exact I.
  apply signed_nn. exact (mul_signed false false (S754_finite false 4503599627370496 (-53)) (S754_finite false m e) eq_refl eq_refl).
Qed.
Lemma loss_nn_64 L (h : heap spec_float) c : not_negative (A:=ArithF L) (loss_value (A:=ArithF L) h c).
Proof.
  apply (loss_nn (A:=ArithF L)).
  - now apply nn_64.
  - apply sq_nn.
  - apply hsq_nn.
  - apply h_nn.
  - intros a b. rewrite !nn_64. apply add_nn.
Qed.
Lemma get_loss_nn_64 L (h : heap spec_float) s : not_negative (A:=ArithF L) (get_loss (A:=ArithF L) h s).
Proof.
  apply (get_loss_nn (A:=ArithF L)).
  - now apply nn_64.
  - apply sq_nn.
  - apply hsq_nn.
  - apply h_nn.
  - intros a b. rewrite !nn_64. apply add_nn.
Qed.
End B.
