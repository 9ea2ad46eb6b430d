(** * The scalar interface

    The Rust code computes with [f64].  Every scalar operation it uses is a field of
    [Arith F]; the program model is written once, over an arbitrary [F] and [Arith F].
    No law is assumed here.  Instances: [ArithR.v] (exact reals with +inf, -inf, NaN) and
    [ArithF.v] (IEEE-754 binary64, arbitrary libm). *)
From Coq Require Import ZArith List Bool.
Import ListNotations.

Class Arith (F : Type) := {
  fadd : F -> F -> F;        (* a + b *)
  fsub : F -> F -> F;        (* a - b *)
  fmul : F -> F -> F;        (* a * b *)
  fdiv : F -> F -> F;        (* a / b *)
  fneg : F -> F;             (* -a *)
  fabs : F -> F;             (* f64::abs *)
  fsqrt : F -> F;            (* f64::sqrt *)
  fsin : F -> F;             (* f64::sin *)
  fcos : F -> F;             (* f64::cos *)
  facos : F -> F;            (* f64::acos *)
  fatan2 : F -> F -> F;      (* y.atan2(x), first argument y *)
  frem : F -> F -> F;        (* a % b, truncated remainder *)
  flt : F -> F -> bool;      (* a < b, false on NaN *)
  fle : F -> F -> bool;      (* a <= b, false on NaN *)
  feq : F -> F -> bool;      (* a == b, false on NaN *)
  ftle : F -> F -> bool;     (* a.total_cmp(&b) != Ordering::Greater *)
  ffin : F -> bool;          (* f64::is_finite *)
  flit : Z -> nat -> F;      (* decimal literal: [flit m k] is m * 10^-k *)
  finf : F;                  (* f64::INFINITY *)
  fpi : F;                   (* std::f64::consts::PI *)
  ftau : F                   (* std::f64::consts::TAU *)
}.

Declare Scope F_scope.
Delimit Scope F_scope with F.
Bind Scope F_scope with Arith.
Notation "a +f b" := (fadd a b) (at level 50, left associativity).
Notation "a -f b" := (fsub a b) (at level 50, left associativity).
Notation "a *f b" := (fmul a b) (at level 40, left associativity).
Notation "a /f b" := (fdiv a b) (at level 40, left associativity).

Section Derived.
Context {F : Type} {A : Arith F}.

Definition f0 : F := flit 0 0.
Definition f1 : F := flit 1 0.
Definition f2 : F := flit 2 0.
Definition fhalf : F := flit 5 1.                       (* 0.5 *)
Definition fm1 : F := fneg f1.                          (* -1.0 *)
Definition fgt (a b : F) : bool := flt b a.             (* a > b *)
Definition fge (a b : F) : bool := fle b a.             (* a >= b *)

(** [f64::max]: a NaN operand is ignored. *)
Definition fmax (a b : F) : F :=
  if flt a b then b else if feq a a then a else b.

(** [f64::clamp(lo, hi)]: NaN is returned unchanged. *)
Definition fclamp (lo hi x : F) : F :=
  let x := if flt x lo then lo else x in
  if fgt x hi then hi else x.

End Derived.
