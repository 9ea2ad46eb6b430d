(** * C91: what a handle stands for *)
From Coq Require Import List ZArith NArith Arith Bool Lia.
From Verif Require Import Arith ArithR Vec Prim Cons Sketch Solve Api Spec ValueSpec HandleSpec HandleLemmas ValueForms BookWitness PropsValue.
Import ListNotations.

(** Handles stay valid, whatever is called. *)
Theorem C91_live {F} {A : Arith F} pinv (st st' : state F) os rs : run pinv st os rs st' ->
  (forall c, cell_ok (fst st) c -> cell_ok (fst st') c) /\ (forall k, k < length (h_cons (fst st)) -> k < length (h_cons (fst st'))).
Proof. intros R. destruct (run_live pinv st os rs st' R). split; auto. intros k Hk. lia. Qed.
Print Assumptions C91_live.
(** A constraint keeps its kind. *)
Theorem C91_kind {F} {A : Arith F} pinv (st st' : state F) os rs k : run pinv st os rs st' -> k < length (h_cons (fst st)) ->
  con_kind (getK (fst st') k) = con_kind (getK (fst st) k).
Proof. exact (run_kind pinv st os rs st' k). Qed.
Print Assumptions C91_kind.
(** Its references change only by assigning new contents to it; its targets only by that or by set_desired_*. *)
Theorem C91_constraint {F} {A : Arith F} pinv (st st' : state F) os rs k : run pinv st os rs st' -> k < length (h_cons (fst st)) ->
  (Forall (fun o => puts_con k o = false) os -> con_refs (getK (fst st') k) = con_refs (getK (fst st) k)) /\
  (Forall (fun o => writes_con k o = false) os -> getK (fst st') k = getK (fst st) k).
Proof. intros R Hk. exact (conj (run_crefs pinv st os rs st' k R Hk) (run_con pinv st os rs st' k R Hk)). Qed.
Print Assumptions C91_constraint.
(** The points of a line, an arc or a circle change only by set_start, set_end or set_center on it. *)
Theorem C91_primitive {F} {A : Arith F} pinv (st st' : state F) os rs c : run pinv st os rs st' -> cell_ok (fst st) c ->
  Forall (fun o => repoints_cell c o = false) os -> prim_refs (fst st') c = prim_refs (fst st) c.
Proof. exact (run_refs pinv st os rs st' c). Qed.
Print Assumptions C91_primitive.

(** a history with new targets and a new point for the constraint, a new centre for a circle, new parameters and a deletion *)
Definition h91_ops : list (op xR) :=
  [ConSetParams 0 (z 2) (z 2); ConPut 0 (FixPoint 1 (z 2) (z 2)); CircleSetCenter 0 1; SetData [z 1; z 0; z 1; z 1; z 2]; DeletePrimitive 3%N].
Example C91_example pinv : exists rs st', run pinv (ex_heap (z 0) (z 1) (z 1), ex_sketch) h91_ops rs st' /\
  0 < length (h_cons (ex_heap (z 0) (z 1) (z 1))) /\ con_refs (getK (fst st') 0) = [PPoint 1] /\
  Forall (fun o => repoints_cell (PLine 0) o = false) h91_ops /\ prim_refs (fst st') (PLine 0) = [PPoint 0; PPoint 1] /\
  prim_refs (fst st') (PCircle 0) = [PPoint 1].
Proof. exists [RetOk; RetOk; RetOk; RetOk; RetOk]. eexists. split; [unfold h91_ops; go|]. cbn. repeat split; try lia; repeat constructor. Qed.
