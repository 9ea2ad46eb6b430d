(** * Which numbers a heap, a call and a result contain *)
From Coq Require Import List ZArith Bool Floats.SpecFloat.
From Verif Require Import Arith Vec Prim Cons Sketch Solve Api Spec SerdeSpec ArithF.
Import ListNotations.

Section NS.
Context {F : Type} {A : Arith F}.
Definition point_nums (p : point F) : list F := [p_x p; p_y p; p_gx p; p_gy p].
Definition arc_nums (a : arc F) : list F := [a_radius a; a_sa a; a_ea a; a_gr a; a_gsa a; a_gea a].
Definition circle_nums (c : circle F) : list F := [c_radius c; c_gr c].
Definition heap_nums (h : heap F) : list F :=
  flat_map point_nums (h_pts h) ++ flat_map arc_nums (h_arcs h) ++ flat_map circle_nums (h_circs h) ++
  flat_map con_params (h_cons h).
Definition solver_nums (sol : solver F) : list F :=
  match sol with
  | GradientBased P => [gd_min_loss P; gd_min_grad P]
  | BFGS P => [bf_min_loss P; bf_grad P]
  | GaussNewton P => [gn_min_loss P; gn_step P; gn_eps P]
  | LevenbergMarquardt P => [lm_min_loss P; lm_step P; lm_eps P; lm_beta P]
  end.
Definition op_nums (o : op F) : list F :=
  match o with
  | NewPoint x y | AddPoint2 x y => [x; y]
  | NewArc _ r _ sa ea | AddArc _ r _ sa ea => [r; sa; ea]
  | NewCircle _ r => [r]
  | NewCon c | Constrain c | ConPut _ c => con_params c
  | SetData v | PrimSetData _ v => v
  | Solve sol => solver_nums sol
  | CheckGradients eps _ ce => [eps; ce]
  | PointSetX _ x | PointSetY _ x => [x]
  | PointAddGrad _ gx gy => [gx; gy]
  | PointPut _ p => point_nums p
  | ArcPut _ r sa ea gr gsa gea _ => [r; sa; ea; gr; gsa; gea]
  | CirclePut _ r g => [r; g]
  | ConSetParams _ x y => [x; y]
  | _ => []
  end.
Definition ret_nums (r : ret F) : list F :=
  match r with RetVec v => v | RetMat m => concat m | _ => [] end.
End NS.

(** a binary64 number in its canonical form; infinities, zeros and NaN included *)
Definition canonical (x : spec_float) : Prop := valid_binary 53 1024 x = true.
(** functions from binary64 numbers to binary64 numbers *)
Definition libm64 (L : libm) : Prop :=
  (forall x, canonical x -> canonical (lm_sin L x) /\ canonical (lm_cos L x) /\ canonical (lm_acos L x)) /\
  (forall x y, canonical x -> canonical y -> canonical (lm_atan2 L x y)).
Definition pinv64 (pinv : mat spec_float -> spec_float -> pinv_res (mat spec_float)) : Prop :=
  forall m eps q, Forall (Forall canonical) m -> canonical eps -> pinv m eps = PInv q -> Forall (Forall canonical) q.
