(** * Vocabulary of C91 *)
From Coq Require Import List Arith.
From Verif Require Import Arith Vec Prim Cons Sketch Solve Api.

(** which of the twelve structs of src/constraints a constraint is *)
Definition con_kind {F} (c : con F) : nat :=
  match c with
  | AngleBetweenPoints _ _ _ _ => 0 | ArcEndPointCoincident _ _ => 1 | ArcStartPointCoincident _ _ => 2
  | EuclideanDistance _ _ _ => 3 | HorizontalDistance _ _ _ => 4 | VerticalDistance _ _ _ => 5 | FixPoint _ _ _ => 6
  | EqualLength _ _ => 7 | HorizontalLine _ => 8 | VerticalLine _ => 9 | ParallelLines _ _ => 10 | PerpendicularLines _ _ => 11
  end.
(** the call assigns new contents to constraint [k] (set_desired_* is not such a call) *)
Definition puts_con {F} (k : loc) (o : op F) : bool := match o with ConPut j _ => Nat.eqb j k | _ => false end.
