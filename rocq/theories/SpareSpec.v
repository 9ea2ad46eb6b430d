(** * What an unconstrained primitive has to do with the rest (for C95) *)
From Coq Require Import List Arith Bool NArith Reals.
From Verif Require Import Arith Vec Prim Cons Sketch Solve Spec ArithR ExactSpec MotionSpec.
Import ListNotations.

Definition has_cell (s : sketch) (c : pcell) : bool := existsb (pcell_eqb c) (cells s).

(** [s'] is [s] with more primitives, anywhere in the order of the ids, none of which has a part in a constraint. *)
Definition with_spare {F} {A : Arith F} (h : heap F) (s s' : sketch) : Prop :=
  s_cons s' = s_cons s /\
  cells s = filter (has_cell s) (cells s') /\
  forall c, registered s' c -> ~ registered s c -> forall k, In k (s_cons s) -> ~ In c (deps h (getK h k)).

(** they come after the others, and the number of coordinates passes no multiple of eight *)
Definition spare_last {F} {A : Arith F} (h : heap F) (s s' : sketch) : Prop :=
  (exists new, cells s' = cells s ++ new) /\ get_n_dofs h s' / 8 = get_n_dofs h s / 8.

(** two runs with the same outcome that leave the same data in all primitives *)
Definition same_course {F} {A : Arith F} {T} (r r' : heap F * out T) : Prop :=
  snd r' = snd r /\ forall c, prim_data (fst r') c = prim_data (fst r) c.

(** a pseudo-inverse of exact arithmetic in the sense of Moore and Penrose, that drops nothing but zeros *)
Definition full_inverse (n : nat) (a q : list (list R)) : Prop :=
  truncated_inverse n a q /\ forall v, length v = n -> mulR a (mulR q (mulR a v)) = mulR a v.
Definition full_pinv (pinv : mat xR -> xR -> pinv_res (mat xR)) : Prop :=
  forall n a eps Q, symmetric n a -> pinv (map (map Fin) a) eps = PInv Q -> exists q, Q = map (map Fin) q /\ full_inverse n a q.
