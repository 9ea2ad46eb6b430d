(** * Error messages: src/error.rs *)
From Coq Require Import List NArith Ascii String.
From Verif Require Import Arith Sketch.
Import ListNotations.
Local Open Scope string_scope.

(** [Display for u64] (core::fmt): the decimal digits, the last one first; a u64 has at most twenty *)
Definition digit (n : N) : ascii := ascii_of_N (48 + n mod 10).
Fixpoint dec_loop (fuel : nat) (n : N) (acc : string) : string :=
  match fuel with
  | O => acc
  | S f => let acc := String (digit n) acc in
           if (n / 10 =? 0)%N then acc else dec_loop f (n / 10)%N acc
  end.
Definition show_u64 (n : N) : string := dec_loop 20 n "".

(** error.rs:3-16: the texts given to thiserror *)
Definition message (e : err) : string :=
  match e with
  | MissingSketchReferences => "All references must be added to the sketch before the primitive"
  | PrimitiveAlreadyInSketch => "The primitive is already in the sketch"
  | PrimitiveNotFound id => "The primitive with ID " ++ show_u64 id ++ " is not in the sketch"
  | ConstraintAlreadyInSketch => "The constraint is already in the sketch"
  | ConstraintNotFound => "No such constraint in the sketch"
  end.
