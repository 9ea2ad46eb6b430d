(** * C50: evaluation in binary64 *)
From Coq Require Import List ZArith NArith Arith Bool Lia Sorted Reals Floats.SpecFloat.
From Verif Require Import Arith Vec Prim Cons Sketch Solve Serde Api Spec SerdeSpec FiniteSpec SolverSpec ArithF FloatSpec
  SpecLemmas DataLemmas FloatForms SolverWitness PropsSolver PropsSerde.
Import ListNotations.

(** All twelve kinds of constraint, any number of them: data up to 2^100 and lines not shorter than 1e-6 are safe. *)
Theorem C50 : forall L, good_libm L -> let A := ArithF L in
  forall (h : heap spec_float) s, valid h s -> (forall k, In k (s_cons s) -> moderate_con L h k) ->
  (exists h' g, get_gradient s h = (h', Val g) /\ Forall fin g) /\
  (exists h' J, get_jacobian s h = (h', Val J) /\ Forall (Forall fin) J) /\
  Forall fin (get_loss_per_constraint h s) /\ fin (get_loss h s).
Proof. exact C50_lemma. Qed.

(** a line, an arc and six constraints that read large and small numbers *)
Definition crude_libm : libm := mkLibm (fun _ => zero) (fun _ => n1) (fun _ => n2) (fun _ _ => zero).
Lemma crude_good : good_libm crude_libm.
Proof. split; intros; repeat split; reflexivity. Qed.
Definition big : spec_float := S754_finite false 4503599627370496 40.   (* 2^92 *)
Definition fl_ops : list (op spec_float) :=
  [AddPoint2 zero zero; AddPoint2 n3 n2; AddLine 0 1; AddPoint2 big n1; AddArc 2 n2 true zero n1;
   Constrain (FixPoint 0 n1 big); Constrain (HorizontalLine 0); Constrain (EuclideanDistance 0 2 n2);
   Constrain (ArcStartPointCoincident 0 0); Constrain (ParallelLines 0 0); Constrain (AngleBetweenPoints 0 1 2 n1)].
Ltac stepV := match goal with |- ?t = ?r => let x := eval vm_compute in t in unify r x; vm_cast_no_check (eq_refl x) end.
Ltac mods := match goal with |- Forall moderate ?l => let x := eval vm_compute in l in replace l with x by (vm_compute; reflexivity) end;
  repeat (first [apply Forall_nil | apply Forall_cons; [split; vm_compute; reflexivity|]]).
Example C50_example : let A := ArithF crude_libm in good_libm crude_libm /\
  exists rs h s, run nopinv init fl_ops rs (h, s) /\ valid h s /\ s_cons s = [0; 1; 2; 3; 4; 5] /\
  (forall k, In k (s_cons s) -> moderate_con crude_libm h k).
Proof.
  intros A. split; [exact crude_good|]. eexists. eexists. eexists.
  assert (R : run nopinv init fl_ops _ (_, _)) by (unfold fl_ops; repeat (first [apply run_nil | eapply run_cons; [okF | stepV |]])).
  split; [exact R|]. split; [exact (reachable_valid nopinv _ _ _ R eq_refl)|]. split; [reflexivity|].
  intros k Hk. cbn [s_cons In] in Hk. split; [|split].
  - intros x (r & Hr & Hx). repeat (destruct Hk as [<-|Hk]; [vm_compute in Hr; repeat (destruct Hr as [<-|Hr]; [vm_compute in Hx; repeat (destruct Hx as [Hx|Hx]; [subst x; mods|]); try tauto|]); try tauto|]); tauto.
  - repeat (destruct Hk as [<-|Hk]; [mods|]); tauto.
  - repeat (destruct Hk as [<-|Hk]; [try exact I|]); try tauto. split; exists zero, zero, n3, n2; repeat split; left; vm_compute; reflexivity.
Qed.
Print Assumptions C50.
