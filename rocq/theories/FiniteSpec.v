(** * Vocabulary of C49 *)
From Coq Require Import List.
From Verif Require Import Arith Vec Prim Cons Sketch Solve Api Spec SerdeSpec.
Import ListNotations.

Section FS.
Context {F : Type} {A : Arith F}.
Definition fin (x : F) : Prop := ffin x = true.

(** everything stored is finite *)
Definition all_data_finite (h : heap F) : Prop :=
  (forall c, cell_ok h c -> Forall fin (prim_data h c)) /\
  (forall k, k < length (h_cons h) -> Forall fin (con_params (getK h k))).
(** the numbers a call writes without checking them *)
Definition unchecked (o : op F) : list F :=
  match o with
  | NewPoint x y | AddPoint2 x y => [x; y]
  | NewArc _ r _ sa ea | AddArc _ r _ sa ea => [r; sa; ea]
  | NewCircle _ r => [r]
  | PointPut _ p => [p_x p; p_y p]
  | ArcPut _ r sa ea _ _ _ _ => [r; sa; ea]
  | CirclePut _ r _ => [r]
  | ConSetParams _ x y => [x; y]
  | ConPut _ c => con_params c
  | _ => []
  end.
End FS.
