(** * Vocabulary of C31 in binary64 *)
From Coq Require Import List Floats.SpecFloat.

(** the same number, except that the sign of a zero may differ *)
Definition same_value (x y : spec_float) : Prop := x = y \/ exists a b, x = S754_zero a /\ y = S754_zero b.
