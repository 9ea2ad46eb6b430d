(** * C87: error messages *)
From Coq Require Import List ZArith NArith Arith Bool Lia Ascii String Floats.SpecFloat.
From Verif Require Import Arith ArithF Vec Prim Cons Sketch Solve Api Spec SpecLemmas Message MessageSpec MessageLemmas SolverWitness.
Import ListNotations.
Local Open Scope string_scope.

(** The text tells which error it is, and for which ID. *)
Theorem C87_distinct : forall e1 e2, u64_error e1 -> u64_error e2 -> message e1 = message e2 -> e1 = e2.
Proof. exact message_inj. Qed.
(** The ID is written in full, in the usual decimal notation. *)
Theorem C87_decimal : forall id, u64 id ->
  exists t, message (PrimitiveNotFound id) = "The primitive with ID " ++ t ++ " is not in the sketch" /\ decimal t id.
Proof. intros id H. exists (show_u64 id). split; [reflexivity | now apply show_decimal]. Qed.
(** What an error says is true of the call and the sketch, except for delete_constraint on the only constraint. *)
Theorem C87_truthful : forall {F} {A : Arith F} pinv (st st' : heap F * sketch) o e, valid (fst st) (snd st) ->
  step pinv st o = (st', RetErr e) ->
  says st o e \/ e = ConstraintNotFound /\ exists k, o = DeleteConstraint k /\ s_cons (snd st) = [k].
Proof. intros F A pinv st st' o e. exact (says_lemma pinv st o st' e). Qed.
(** There the error is returned although the constraint is in the sketch, and stays there. *)
Theorem C87_truthful_refuted : forall L, let A := ArithF L in
  exists st o e, (exists os rs, run nopinv init os rs st) /\ step nopinv st o = (st, RetErr e) /\ ~ says st o e.
Proof.
  intros L A. exists (fix_heap (lit64 3 0) (lit64 4 0) (lit64 1 0) (lit64 5 1), fix_sketch), (DeleteConstraint 0), ConstraintNotFound.
  split; [|split; [reflexivity|]].
  - destruct (fix_run L (lit64 3 0) (lit64 4 0) (lit64 1 0) (lit64 5 1)) as [rs R]; try reflexivity. eexists. exists rs. exact R.
  - intros (k & E & N). injection E as <-. apply N. simpl. auto.
Qed.

(** a number with a zero in it, the largest number, and a call that names the wrong primitive *)
Example C87_example : u64 18446744073709551615 /\
  message (PrimitiveNotFound 105) = "The primitive with ID 105 is not in the sketch" /\
  show_u64 18446744073709551615 = "18446744073709551615" /\ show_u64 0 = "0".
Proof. split; [reflexivity|]. vm_compute. auto. Qed.
Example C87_call_example : forall L, let A := ArithF L in let st := (fix_heap (lit64 3 0) (lit64 4 0) (lit64 1 0) (lit64 5 1), fix_sketch) in
  valid (fst st) (snd st) /\ step nopinv st (DeletePrimitive 7) = (st, RetErr (PrimitiveNotFound 7)).
Proof. intros L A st. split; [apply fix_valid; reflexivity | reflexivity]. Qed.

Print Assumptions C87_distinct.
Print Assumptions C87_decimal.
Print Assumptions C87_truthful.
Print Assumptions C87_truthful_refuted.
