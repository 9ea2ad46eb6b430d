(** * More about C91: what a new handle stands for *)
From Coq Require Import List ZArith NArith Arith Bool.
From Verif Require Import Arith ArithR Vec Prim Cons Sketch Solve Api Spec CreateSpec CreateLemmas ValueSpec ValueForms BookWitness PropsValue.
Import ListNotations.

(** Every constructor, and every method of the sketch that makes an object and registers it, leaves at the handle it returns an
    object that was not there before, with the contents asked for and zero for a gradient. *)
Theorem C91_created {F} {A : Arith F} pinv (st st' : state F) o l : creates o -> step pinv st o = (st', RetLoc l) ->
  as_asked (fst st') o l /\ was_free (fst st) o l.
Proof. exact (C91_created_lemma pinv st st' o l). Qed.
Print Assumptions C91_created.
(** Whether it succeeds, fails or panics, nothing changes at the handles given out before. *)
Theorem C91_kept {F} {A : Arith F} pinv (st st' : state F) o r : creates o -> step pinv st o = (st', r) -> kept_all (fst st) (fst st').
Proof. exact (C91_kept_lemma pinv st st' o r). Qed.
Print Assumptions C91_kept.

(** a second circle about the same centre; a distance to be kept *)
Example C91_created_example pinv : exists st' st'', creates (NewCircle 0 (z 3)) /\
  step pinv (ex_heap (z 0) (z 1) (z 1), ex_sketch) (NewCircle 0 (z 3)) = (st', RetLoc 1) /\ getC (fst st') 1 = mkCircle 0 (z 3) f0 /\
  creates (Constrain (FixPoint 1 (z 2) (z 2))) /\
  step pinv st' (Constrain (FixPoint 1 (z 2) (z 2))) = (st'', RetLoc (length (h_cons (fst st')))).
Proof. eexists. eexists. split; [exact I|]. split; [reflexivity|]. split; [reflexivity|]. split; [exact I|]. reflexivity. Qed.
