(** * Vocabulary of the properties about what a solver run moves (C28, C31, C62, C63) *)
From Coq Require Import Reals List Arith.
From Verif Require Import Arith Vec Prim Cons Sketch Solve Spec ArithR ExactSpec.
Import ListNotations.
Local Open Scope R_scope.

(** real matrices are lists of rows *)
Definition mulR (m : list (list R)) (v : list R) : list R := map (fun r => dotL r v) m.
Definition symmetric (n : nat) (m : list (list R)) : Prop :=
  length m = n /\ List.Forall (fun r => length r = n) m /\
  forall x v, length x = n -> length v = n -> dotL x (mulR m v) = dotL v (mulR m x).
(** [q] inverts the symmetric matrix [a] on a sum of eigenspaces of [a] and is zero on the
    others.  The pseudo-inverse of exact arithmetic that drops the singular values up to [eps] is
    such a matrix. *)
Definition truncated_inverse (n : nat) (a q : list (list R)) : Prop :=
  symmetric n q /\
  (forall v, length v = n -> mulR q (mulR a (mulR q v)) = mulR q v) /\
  (forall v, length v = n -> mulR q (mulR a v) = mulR a (mulR q v)).
Definition exact_pinv (pinv : mat xR -> xR -> pinv_res (mat xR)) : Prop :=
  forall n a eps Q, symmetric n a -> pinv (map (map Fin) a) eps = PInv Q ->
    exists q, Q = map (map Fin) q /\ truncated_inverse n a q.

(** the numbers among the solver's parameters that enter the step are finite *)
Definition finite_steps (sol : solver xR) : Prop :=
  match sol with
  | GaussNewton P => ffin (gn_step P) = true
  | LevenbergMarquardt P => ffin (lm_step P) = true /\ ffin (lm_beta P) = true
  | _ => True
  end.

(** [W] is a group of points that no constraint ties to the plane or to points outside it *)
Definition floating (h : heap xR) (s : sketch) (W : list loc) : Prop :=
  NoDup W /\ (forall l, In l W -> registered s (PPoint l)) /\
  forall k, In k (s_cons s) ->
    (forall l, In (PPoint l) (deps h (getK h k)) -> ~ In l W) \/
    (translation_invariant (getK h k) = true /\ forall l, In (PPoint l) (deps h (getK h k)) -> In l W).
(** sums of the coordinates of the points in [W] *)
Definition sum_x (h : heap xR) (W : list loc) : R := sumR (map (cx (cfg_of h)) W).
Definition sum_y (h : heap xR) (W : list loc) : R := sumR (map (cy (cfg_of h)) W).

(** half the sum of the squared losses, the function Gauss-Newton and Levenberg-Marquardt minimise *)
Definition half_squares (h : heap xR) (s : sketch) : R :=
  sumR (map (fun l => sq (vx l)) (get_loss_per_constraint h s)) / 2.
(** one iteration of Gauss-Newton, or of Levenberg-Marquardt with damping [b], with step size [st] *)
Definition one_step (damping : option R) (min_loss eps : xR) (st : R) : solver xR :=
  match damping with
  | None => GaussNewton (mkGN 1 min_loss (Fin st) eps)
  | Some b => LevenbergMarquardt (mkLM 1 min_loss (Fin st) eps (Fin b))
  end.
