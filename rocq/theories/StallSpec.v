(** * Vocabulary of the properties about the truncation of Gauss-Newton (C82, C83) *)
From Coq Require Import Reals List Arith NArith.
From Verif Require Import Arith Vec Prim Cons Sketch Solve Spec ArithR ExactSpec MotionSpec.
Import ListNotations.
Local Open Scope R_scope.

(** [q] inverts the positive semidefinite matrix [a] on the sum of the eigenspaces of the eigenvalues above [eps], and
    is zero on the eigenspaces of the others *)
Definition cut_inverse (n : nat) (eps : R) (a q : list (list R)) : Prop :=
  truncated_inverse n a q /\
  (forall v, length v = n -> mulR q v <> repeat 0 n -> eps * dotL (mulR q v) (mulR q v) < dotL (mulR q v) (mulR a (mulR q v))) /\
  (forall w, length w = n -> mulR q w = repeat 0 n -> dotL w (mulR a w) <= eps * dotL w w).
(** a pseudo-inverse of exact arithmetic that drops the singular values up to [eps] and no others *)
Definition cutting_pinv (pinv : mat xR -> xR -> pinv_res (mat xR)) : Prop :=
  forall n a eps Q, symmetric n a -> (forall v, length v = n -> 0 <= dotL v (mulR a v)) -> 0 <= eps ->
    pinv (map (map Fin) a) (Fin eps) = PInv Q -> exists q, Q = map (map Fin) q /\ cut_inverse n eps a q.
(** the matrix J^T J, for a matrix [J] with rows of length [n] *)
Definition normal_matrix (n : nat) (J : list (list R)) : list (list R) :=
  map (fun i => map (fun j => dotL (map (fun r => nth i r 0) J) (map (fun r => nth j r 0) J)) (seq 0 n)) (seq 0 n).
(** [pinv] does not fail on the multiples of [N] *)
Definition accepts (pinv : mat xR -> xR -> pinv_res (mat xR)) (eps : R) (N : list (list R)) : Prop :=
  forall c, 0 < c -> exists Q, pinv (map (map (fun x => Fin (c * x))) N) (Fin eps) = PInv Q.
(** number of constraints that act on a point *)
Definition acts_on (h : heap xR) (p k : loc) : bool := existsb (pcell_eqb (PPoint p)) (deps h (getK h k)).
Definition valence (h : heap xR) (s : sketch) (p : loc) : nat := length (filter (acts_on h p) (s_cons s)).
(** all singular values of the real matrix [J] are at most the root of [eps] *)
Definition small_jacobian (n : nat) (eps : R) (J : list (list R)) : Prop :=
  forall w, length w = n -> dotL (mulR J w) (mulR J w) <= eps * dotL w w.

(** ** constraints that ask for one linear equation *)
Definition one_equation (c : con xR) : bool :=
  match c with HorizontalDistance _ _ _ | VerticalDistance _ _ _ | HorizontalLine _ | VerticalLine _ => true | _ => false end.
(** how far the equation is from holding, with its sign *)
Definition deviation (g : cfg) (h : heap xR) (c : con xR) : R :=
  match c with
  | HorizontalDistance p1 p2 d => cx g p2 - cx g p1 - vx d
  | VerticalDistance p1 p2 d => cy g p2 - cy g p1 - vx d
  | HorizontalLine l => cy g (l_end (getL h l)) - cy g (l_start (getL h l))
  | VerticalLine l => cx g (l_end (getL h l)) - cx g (l_start (getL h l))
  | _ => 0
  end.
(** linear combination of the rows of [J], vectors of length [n] *)
Definition combine_rows (n : nat) (J : list (list R)) (c : list R) : list R :=
  map (fun j => dotL (map (fun r => nth j r 0) J) c) (seq 0 n).
(** the smallest eigenvalue of the Gram matrix of the rows of [J] is at least [lam] *)
Definition gram_at_least (n : nat) (J : list (list R)) (lam : R) : Prop :=
  forall c, length c = length J -> lam * dotL c c <= dotL (combine_rows n J c) (combine_rows n J c).
(** the value the loop of Gauss-Newton compares with its threshold before iteration [i] (counted from 0), when every
    iteration multiplies the loss by [rho]^2 *)
Definition checked_loss (rho l : R) (i : nat) : xR := match i with O => PInf | S j => Fin (rho ^ (2 * j) * l) end.
