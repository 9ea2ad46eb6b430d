(** * Vocabulary of the properties about linear sketches (C69, C70) *)
From Coq Require Import Reals List.
From Verif Require Import Arith Vec Prim Cons Sketch Spec ArithR ExactSpec.
Import ListNotations.
Local Open Scope R_scope.

(** the constraints that ask for a linear relation between coordinates *)
Definition linear {F} (c : con F) : bool :=
  match c with
  | FixPoint _ _ _ | HorizontalDistance _ _ _ | VerticalDistance _ _ _ | HorizontalLine _ | VerticalLine _ => true
  | _ => false
  end.
Definition linear_sketch {F} {A : Arith F} (h : heap F) (s : sketch) : Prop :=
  forall k, In k (s_cons s) -> linear (getK h k) = true.
(** squared distance of two vectors, and their difference *)
Definition dist2 (u v : list R) : R := sumR (map2 (fun x y => sq (x - y)) u v).
Definition minusL (u v : list R) : list R := map2 Rminus u v.
(** all constraints of the sketch hold *)
Definition all_satisfied (h : heap xR) (s : sketch) : Prop :=
  forall k, In k (s_cons s) -> satisfied (cfg_of h) h (getK h k).
(** the points registered with the sketch *)
Definition points (s : sketch) : list nat :=
  flat_map (fun c => match c with PPoint l => [l] | _ => [] end) (cells s).
