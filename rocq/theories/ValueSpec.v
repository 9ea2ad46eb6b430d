(** * What [==] and [partial_cmp] must satisfy
    (the documentation of std::cmp::PartialEq and std::cmp::PartialOrd) *)
From Coq Require Import List Bool.
Import ListNotations.

Record comparable {T : Type} (eqb : T -> T -> bool) (cmp : T -> T -> option comparison) : Prop := {
  (** [a == b] implies [b == a];  [a == b] and [b == c] imply [a == c] *)
  eq_symmetric : forall a b, eqb a b = true -> eqb b a = true;
  eq_transitive : forall a b c, eqb a b = true -> eqb b c = true -> eqb a c = true;
  (** [a == b] if and only if [partial_cmp(a, b) == Some(Equal)] *)
  cmp_equal : forall a b, cmp a b = Some Eq <-> eqb a b = true;
  (** [a < b] if and only if [b > a] *)
  cmp_dual : forall a b, cmp a b = Some Lt <-> cmp b a = Some Gt;
  (** [a < b] and [b < c] imply [a < c] *)
  cmp_transitive : forall a b c, cmp a b = Some Lt -> cmp b c = Some Lt -> cmp a c = Some Lt;
  (** equal values compare alike *)
  cmp_congruent : forall a b c, eqb a b = true -> cmp a c = cmp b c }.

From Coq Require Import ZArith NArith Arith.
From Verif Require Import Arith Vec Prim Cons Sketch Solve Api.

(** the calls that give constraint [k] new parameters or references *)
Definition writes_con {F} (k : loc) (o : op F) : bool :=
  match o with ConSetParams j _ _ | ConPut j _ => Nat.eqb j k | _ => false end.
(** the calls that make primitive [c] refer to another point *)
Definition repoints_cell {F} (c : pcell) (o : op F) : bool :=
  match o with
  | LineSetStart l _ | LineSetEnd l _ => pcell_eqb (PLine l) c
  | ArcSetCenter l _ => pcell_eqb (PArc l) c
  | CircleSetCenter l _ => pcell_eqb (PCircle l) c
  | _ => false
  end.
