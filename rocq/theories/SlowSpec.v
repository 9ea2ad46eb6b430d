(** * Vocabulary of the properties about the speed of Gauss-Newton and Levenberg-Marquardt (C79, C80) *)
From Coq Require Import Reals List NArith.
From Verif Require Import Arith Vec Prim Cons Sketch Solve Spec ArithR ExactSpec MotionSpec.
Import ListNotations.
Local Open Scope R_scope.

(** sum of the squares of the constraint losses *)
Definition sum_squares (h : heap xR) (s : sketch) : R := sumR (map (fun l => sq (vx l)) (get_loss_per_constraint h s)).
(** step size and budget of the two solvers; the damping is zero for Gauss-Newton *)
Definition nls_params (sol : solver xR) (max : N) (st damping : R) : Prop :=
  match sol with
  | GaussNewton P => gn_max P = max /\ gn_step P = Fin st /\ damping = 0
  | LevenbergMarquardt P => lm_max P = max /\ lm_step P = Fin st /\ lm_beta P = Fin damping
  | _ => False
  end.
(** the run of either solver with its number of iterations *)
Definition nls_run (pinv : mat xR -> xR -> pinv_res (mat xR)) (sol : solver xR) (s : sketch) : M xR (sres nat) :=
  match sol with
  | GaussNewton P => gn_run pinv s P
  | LevenbergMarquardt P => lm_run pinv s P
  | _ => mpanic
  end.
(** a pseudo-inverse that never fails on a symmetric matrix *)
Definition never_fails (pinv : mat xR -> xR -> pinv_res (mat xR)) : Prop :=
  forall n a eps, symmetric n a -> exists Q, pinv (map (map Fin) a) eps = PInv Q.
