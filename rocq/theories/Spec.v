(** * Vocabulary of the property statements *)
From Coq Require Import List ZArith NArith Arith Bool Sorted.
From Verif Require Import Arith Vec Prim Cons Sketch Solve Api.
Import ListNotations.

(** number of calls that cannot exhaust the u64 id counter *)
Definition few (n : nat) : Prop := (N.of_nat n + 1 < 18446744073709551616)%N.

(** number of parameters of a primitive *)
Definition n_params (c : pcell) : nat :=
  match c with PPoint _ => 2 | PLine _ => 0 | PArc _ => 3 | PCircle _ => 1 end.
Definition is_point (c : pcell) : bool := match c with PPoint _ => true | _ => false end.
Definition is_arc (c : pcell) : bool := match c with PArc _ => true | _ => false end.
Definition is_circle (c : pcell) : bool := match c with PCircle _ => true | _ => false end.
Definition how_many (f : pcell -> bool) (s : sketch) : nat :=
  length (filter (fun kp => f (snd kp)) (s_prims s)).

(** position of the parameters of the primitive [id] in the data vector: after the
    parameters of all primitives with a smaller id *)
Definition position (s : sketch) (id : N) : nat :=
  list_sum (map (fun kp => if (fst kp <? id)%N then n_params (snd kp) else 0) (s_prims s)).

Definition registered (s : sketch) (c : pcell) : Prop := exists id, get_primitive_by_id s id = Some c.

Section Spec.
Context {F : Type} {A : Arith F}.

(** What holds of every sketch a program can build: the map has ascending keys, no cell is
    registered twice, all handles are live. *)
Record valid (h : heap F) (s : sketch) : Prop := {
  v_keys : StronglySorted N.lt (map fst (s_prims s));
  v_cells : NoDup (map snd (s_prims s));
  v_cons : NoDup (s_cons s);
  v_heap : heap_ok h;
  v_live : forall c, registered s c -> cell_ok h c;
  v_live_cons : forall k, In k (s_cons s) -> k < length (h_cons h) }.

(** all registered parameters are finite *)
Definition finite_data (h : heap F) (s : sketch) : Prop :=
  forall c, registered s c -> Forall (fun x => ffin x = true) (prim_data h c).

(** every reference of a registered primitive or constraint is registered *)
Definition refs_closed (h : heap F) (s : sketch) : Prop :=
  (forall c r, registered s c -> In r (prim_refs h c) -> registered s r) /\
  (forall k r, In k (s_cons s) -> In r (con_refs (getK h k)) -> registered s r).

(** the calls that change which points a primitive or constraint refers to *)
Definition is_repointing (o : op F) : bool :=
  match o with
  | LineSetStart _ _ | LineSetEnd _ _ | ArcSetCenter _ _ | CircleSetCenter _ _ | ConPut _ _ => true
  | _ => false
  end.
Definition is_delete_primitive (o : op F) : bool :=
  match o with DeletePrimitive _ => true | _ => false end.

(** Two heaps agree on everything except the parameters of the cells in [W]
    and (if [G]) cached gradients. *)
Definition same_structure (h h' : heap F) : Prop :=
  h_lines h' = h_lines h /\ h_cons h' = h_cons h /\
  length (h_pts h') = length (h_pts h) /\ length (h_arcs h') = length (h_arcs h) /\
  length (h_circs h') = length (h_circs h) /\
  (forall l, a_center (getA h' l) = a_center (getA h l) /\ a_cw (getA h' l) = a_cw (getA h l)) /\
  (forall l, c_center (getC h' l) = c_center (getC h l)).

End Spec.

(** the constraints registered by a sequence of calls with their results, in call order *)
Fixpoint added_constraints {F} (os : list (op F)) (rs : list (ret F)) : list loc :=
  match os, rs with
  | AddConstraint k :: os', RetOk :: rs' => k :: added_constraints os' rs'
  | Constrain _ :: os', RetLoc k :: rs' => k :: added_constraints os' rs'
  | _ :: os', _ :: rs' => added_constraints os' rs'
  | _, _ => []
  end.
