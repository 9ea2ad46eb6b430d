(** * More about C48: no solver moves a deserialised sketch *)
From Coq Require Import List ZArith NArith Arith Bool Lia Reals Floats.SpecFloat.
From Verif Require Import Arith Vec Prim Cons Sketch Solve Serde Api Spec SerdeSpec SolverSpec ArithR ArithF ExactSpec MotionSpec
  DataLemmas MotionExamples SerdeSolve SolverWitness PropsSolver PropsSerde PropsMotion.
Import ListNotations.

(** Exact arithmetic: with any exact pseudo-inverse none of the four solvers moves the copy, whatever its parameters and
    whatever the outcome. *)
Theorem C48_every_solver_partial : forall pinv sol (h h0 h' : heap xR) s s', exact_pinv pinv -> finite_steps sol ->
  valid h s -> finite_data h s -> all_con_finite h s -> heap_ok h0 ->
  deserialize (serialize h s) h0 = (h', s') -> get_data (fst (solve pinv sol s' h')) s' = get_data h s.
Proof. exact C48_every_solver_lemma. Qed.

(** Binary64, any data (also NaN and infinite): gradient descent and BFGS with a positive threshold for the gradient keep
    every bit of the copy's data and say Ok, unless the computation of the gradient panics. *)
Theorem C48_binary64_partial : forall L, let A := ArithF L in forall pinv sol (h h0 h' : heap spec_float) s s', valid h s -> heap_ok h0 ->
  deserialize (serialize h s) h0 = (h', s') ->
  match sol with
  | GradientBased P => SFltb (S754_zero false) (gd_min_grad P) = true
  | BFGS P => SFltb (S754_zero false) (bf_grad P) = true
  | _ => False
  end ->
  get_data (fst (solve pinv sol s' h')) s' = get_data h s /\
  (forall c, prim_data (fst (solve pinv sol s' h')) c = prim_data h' c) /\
  (snd (solve pinv sol s' h') = Val (SOk tt) \/
   snd (solve pinv sol s' h') = Panic /\ snd (get_gradient s' h') = Panic).
Proof. intros L. exact (C48_binary64_lemma L). Qed.

(** Two points too far apart and Gauss-Newton, which moves the original; a sketch with four constraints and the default parameters *)
Example C48_every_solver_example : exact_pinv line_pinv /\ finite_steps (one_step None (Fin 0) (Fin 0) 1) /\
  valid hd_heap hd_sketch /\ finite_data hd_heap hd_sketch /\ all_con_finite hd_heap hd_sketch /\ heap_ok hd_heap /\
  get_data (fst (solve line_pinv (one_step None (Fin 0) (Fin 0) 1) hd_sketch hd_heap)) hd_sketch <> get_data hd_heap hd_sketch.
Proof.
  destruct C31_every_solver_example as (P & S & V & Fd & CF & _ & _ & h' & E & G).
  repeat (split; [assumption|]). split; [apply V|]. rewrite E. cbn [fst]. rewrite G. intros X. injection X. intros. Lra.lra.
Qed.
Example C48_binary64_example : forall L, let A := ArithF L in
  valid (sd_heap L) sd_sketch /\ heap_ok (sd_heap L) /\
  SFltb (S754_zero false) (gd_min_grad gd_default) = true /\ SFltb (S754_zero false) (bf_grad bfgs_default) = true.
Proof. intros L A. destruct (C47_example L) as (V & O & _). split; [exact V|]. split; [exact O|]. vm_compute. auto. Qed.

Print Assumptions C48_every_solver_partial.
Print Assumptions C48_binary64_partial.
