(** * C49: which calls let numbers that are not finite in *)
From Coq Require Import List ZArith NArith Arith Bool Lia Sorted Reals Floats.SpecFloat.
From Verif Require Import Arith Vec Prim Cons Sketch Solve Serde Api Spec SerdeSpec FiniteSpec SolverSpec ArithR ArithF ExactSpec
  SpecLemmas DataLemmas FiniteForms SolverWitness PropsSolver.
Import ListNotations.

Definition m1 : spec_float := Eval vm_compute in lit64 1 0.
(** Four histories without a panic or an error, each after which a number that is not finite is stored,
    and whose last state refuses to evaluate its gradient.  Binary64. *)
Definition bad_state (L : libm) (os : list (op spec_float)) : Prop := let A := ArithF L in
  exists rs st, run nopinv init os rs st /\ Forall (fun r => r <> RetPanic /\ forall e, r <> RetErr e) rs /\
    ~ all_data_finite (fst st) /\ snd (get_gradient (snd st) (fst st)) = Panic.
Ltac stepV := match goal with |- ?t = ?r =>
  let x := eval vm_compute in t in unify r x; vm_cast_no_check (eq_refl x) end.
Ltac goF' := repeat (first [apply run_nil | eapply run_cons; [okF | stepV |]]).
Ltac noerr := repeat constructor; try discriminate.
Theorem C49_refuted : forall L,
  bad_state L [AddPoint2 S754_nan zero; Constrain (FixPoint 0 zero zero)] /\
  bad_state L [AddPoint2 zero zero; AddPoint2 zero zero; AddLine 0 1; PointPut 1 (@Point2_new _ (ArithF L) zero (S754_infinity false)); Constrain (HorizontalLine 0)] /\
  bad_state L [AddPoint2 zero zero; AddPoint2 m1 zero; Constrain (HorizontalDistance 0 1 m1); ConSetParams 0 (S754_infinity true) zero] /\
  bad_state (mkLibm (fun _ => zero) (fun _ => m1) (fun _ => zero) (fun _ _ => zero))
    [AddPoint2 zero zero; AddPoint2 m1 zero; AddArc 0 (S754_infinity false) false zero m1; Constrain (ArcStartPointCoincident 0 1)].
Proof.
  intros L. split; [|split; [|split]].
  - eexists. eexists. split; [goF'|]. split; [noerr|]. split; [|vm_compute; reflexivity].
    intros [H _]. specialize (H (PPoint 0)). simpl in H. assert (T : 0 < 1) by lia. apply H in T. inversion T. discriminate.
  - eexists. eexists. split; [goF'|]. split; [noerr|]. split; [|vm_compute; reflexivity].
    intros [H _]. specialize (H (PPoint 1)). simpl in H. assert (T : 1 < 2) by lia. apply H in T. inversion T as [|? ? ? T2]. inversion T2. discriminate.
  - eexists. eexists. split; [goF'|]. split; [noerr|]. split; [|vm_compute; reflexivity].
    intros [_ H]. specialize (H 0). simpl in H. assert (T : 0 < 1) by lia. apply H in T. inversion T. discriminate.
  - eexists. eexists. split; [goF'|]. split; [noerr|]. split.
    + intros [H _]. specialize (H (PArc 0)). simpl in H. assert (T : 0 < 1) by lia. apply H in T. inversion T. discriminate.
    + vm_compute. reflexivity.
Qed.
(** These are all the ways in: in every arithmetic, for every solver and every pseudo-inverse, as long as the numbers in
    the listed calls ([unchecked]) are finite, everything stored stays finite, panics included. *)
Theorem C49_partial : forall {F} {A : Arith F} pinv (os : list (op F)) rs st, run pinv init os rs st ->
  Forall (fun o => Forall fin (unchecked o)) os -> all_data_finite (fst st).
Proof. intros F A pinv os rs st. exact (C49_lemma pinv os rs st). Qed.
(** a history in which checked calls are given NaN and infinity *)
Example C49_example : forall L, let A := ArithF L in
  let os := [AddPoint2 zero zero; AddPoint2 m1 zero; AddLine 0 1; Constrain (HorizontalDistance 0 1 m1); SetData [S754_nan; zero; m1; m1];
     PointSetX 0 (S754_infinity false); Constrain (FixPoint 0 S754_nan zero); Solve (BFGS bfgs_default)] in
  Forall (fun o => Forall fin (unchecked o)) os /\
  exists st, run nopinv init os [RetLoc 0; RetLoc 1; RetLoc 0; RetLoc 0; RetPanic; RetPanic; RetPanic; RetSolve (SOk tt)] st /\
    get_data (fst st) (snd st) = [zero; zero; m1; zero].
Proof.
  intros L A os. split; [repeat constructor|]. eexists. split; [unfold os; goF' | cbv; reflexivity].
Qed.

Print Assumptions C49_refuted.
Print Assumptions C49_partial.
