(** * Vocabulary of C81: why a call panics *)
From Coq Require Import Reals List NArith.
From Verif Require Import Arith Vec Prim Cons Sketch Solve Api Spec SerdeSpec FiniteSpec ArithR ExactSpec.
Import ListNotations.

Section PS.
Context {F : Type} {A : Arith F}.
Definition some_bad (v : list F) : Prop := exists x, In x v /\ ffin x = false.
(** a constraint one of whose gradient rows is not finite *)
Definition bad_rows (h : heap F) (c : con F) : Prop := exists t row, In (t, row) (grad_rows h c) /\ some_bad row.
(** number of parameters of a primitive *)
Definition n_params (c : pcell) : nat := match c with PPoint _ => 2 | PLine _ => 0 | PArc _ => 3 | PCircle _ => 1 end.

(** The reason for a panic of a call in the state (h, s), in any arithmetic; h' is the state after the panic.
    Solve and CheckGradients are left open here. *)
Definition why_panic (o : op F) (h h' : heap F) (s : sketch) : Prop :=
  match o with
  | NewCon c | Constrain c => some_bad (con_params c)
  | SetData v => length v <> get_n_dofs h s \/ some_bad v
  | PrimSetData c v => match c with PLine _ => False | _ => length v <> n_params c \/ some_bad v end
  | PointSetX _ x | PointSetY _ x => ffin x = false
  | PointAddGrad _ x y => some_bad [x; y]
  | UpdateGradient k => bad_rows h (getK h k)
  | GetJacobian => exists k, In k (s_cons s) /\ bad_rows h (getK h k)
  | GetGradient => (exists k, In k (s_cons s) /\ bad_rows h (getK h k)) \/ (exists c, registered s c /\ some_bad (prim_grad h' c))
  | ConPut k c => same_kind (getK h k) c = false
  | Solve _ | CheckGradients _ _ _ => True
  | _ => False
  end.
End PS.

Local Open Scope R_scope.
(** an equal-length constraint of the sketch acts on a line of length zero *)
Definition collapsed (h : heap xR) (s : sketch) : Prop := exists k, In k (s_cons s) /\ zero_length (cfg_of h) h (getK h k).
(** what nalgebra's pseudo_inverse does *)
Definition panics_only_on_empty (pinv : mat xR -> xR -> pinv_res (mat xR)) : Prop := forall m eps, pinv m eps = PPanic -> m = [].
(** The reason for a panic of a call with finite arguments, in exact arithmetic; (h, s) is the state after the panic. *)
Definition why_panic_exact (o : op xR) (h : heap xR) (s : sketch) : Prop :=
  match o with
  | SetData v => length v <> get_n_dofs h s
  | PrimSetData c v => match c with PLine _ => False | _ => length v <> n_params c end
  | UpdateGradient k => zero_length (cfg_of h) h (getK h k)
  | GetGradient | GetJacobian | Solve (GradientBased _) | Solve (BFGS _) => collapsed h s
  | Solve _ => collapsed h s \/ get_n_dofs h s = 0%nat
  | ConPut k c => same_kind (getK h k) c = false
  | CheckGradients _ _ _ => True
  | _ => False
  end.
