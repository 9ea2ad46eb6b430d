(** * A change of the unit of length *)
From Coq Require Import List ZArith NArith Bool.
From Verif Require Import Arith Vec Prim Cons Sketch Solve.
Import ListNotations.

Section Rescale.
Context {F : Type} {A : Arith F}.
(** the new unit is [lam] times smaller: lengths grow by the factor [lam], areas by its square, angles stay *)
Variable lam : F.
Definition len (x : F) : F := lam *f x.
Definition area (x : F) : F := (lam *f lam) *f x.
(** a gradient is an area divided by the unit of the parameter *)
Definition rescale_point (p : point F) : point F := mkPoint (len (p_x p)) (len (p_y p)) (len (p_gx p)) (len (p_gy p)).
Definition rescale_circle (c : circle F) : circle F := mkCircle (c_center c) (len (c_radius c)) (len (c_gr c)).
Definition rescale_arc (a : arc F) : arc F :=
  mkArc (a_center a) (len (a_radius a)) (a_sa a) (a_ea a) (len (a_gr a)) (area (a_gsa a)) (area (a_gea a)) (a_cw a).
Definition rescale_con (c : con F) : con F :=
  match c with
  | EuclideanDistance a b d => EuclideanDistance a b (len d)
  | HorizontalDistance a b d => HorizontalDistance a b (len d)
  | VerticalDistance a b d => VerticalDistance a b (len d)
  | FixPoint p x y => FixPoint p (len x) (len y)
  | c => c
  end.
Definition rescale (h : heap F) : heap F :=
  mkHeap (map rescale_point (h_pts h)) (h_lines h) (map rescale_arc (h_arcs h)) (map rescale_circle (h_circs h)) (map rescale_con (h_cons h)).
(** the stopping thresholds in the new unit: one is compared with an area, the other with a length *)
Definition rescale_gd (P : gd_params F) : gd_params F := mkGD (gd_max P) (area (gd_min_loss P)) (len (gd_min_grad P)).
Definition rescale_bfgs (P : bfgs_params F) : bfgs_params F := mkBFGS (bf_max P) (area (bf_min_loss P)) (len (bf_grad P)).
End Rescale.
(** the constraints whose loss is half the square of a length.  Of these [EuclideanDistance] is missing: it compares a
    length with the number 1e-6. *)
Definition length_con {F} (c : con F) : Prop :=
  match c with
  | HorizontalDistance _ _ _ | VerticalDistance _ _ _ | FixPoint _ _ _ | EqualLength _ _ | HorizontalLine _ | VerticalLine _ => True
  | _ => False
  end.
Definition lengths_only {F} (h : heap F) : Prop := forall c, In c (h_cons h) -> length_con c.
(** the sketch has no arc, whose angles are no lengths *)
Definition no_arcs (s : sketch) : Prop := forall c, In c (cells s) -> match c with PArc _ => False | _ => True end.
