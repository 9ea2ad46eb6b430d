(** * Vocabulary for the operations on single cells *)
From Coq Require Import List ZArith NArith Arith Bool.
From Verif Require Import Arith Vec Prim Cons Sketch Decomp Api Spec.
Import ListNotations.

Section CellSpec.
Context {F : Type} {A : Arith F}.

(** everything that can be observed of a primitive: parameters, cached gradient, the points it
    refers to and, for an arc, its direction flag *)
Definition view (h : heap F) (c : pcell) : list F * list F * list pcell * option bool :=
  (prim_data h c, prim_grad h c, prim_refs h c,
   match c with PArc a => Some (a_cw (getA h a)) | _ => None end).

(** from [h] to [h'] the cell [c] changes to [v]; no other cell changes, none appears *)
Definition becomes (h h' : heap F) (c : pcell) (v : list F * list F * list pcell * option bool) : Prop :=
  view h' c = v /\ (forall c', c' <> c -> view h' c' = view h c') /\
  (forall c', cell_ok h' c' <-> cell_ok h c') /\ h_cons h' = h_cons h.

(** [x] and [y] are added to the cached gradient of the point [l] *)
Definition gadd (h h' : heap F) (l : loc) (x y : F) : Prop :=
  exists d a b, view h (PPoint l) = (d, [a; b], [], None) /\ becomes h h' (PPoint l) (d, [a +f x; b +f y], [], None).

(** [hx] is [h] except that parameter [i] of the primitive [c] is [x] *)
Definition one_moved (h : heap F) (c : pcell) (i : nat) (x : F) (hx : heap F) : Prop :=
  same_structure h hx /\ prim_data hx c = lset (prim_data h c) i x /\
  forall c', c' <> c -> prim_data hx c' = prim_data h c'.

(** the difference quotient of the loss of constraint [k] in parameter [i] of [c] *)
Definition finite_difference (h : heap F) (c : pcell) (k : loc) (eps : F) (i : nat) (q : F) : Prop :=
  exists x hx, nth_error (prim_data h c) i = Some x /\ ffin (x +f eps) = true /\ one_moved h c i (x +f eps) hx /\
    q = (loss_value hx (getK h k) -f loss_value h (getK h k)) /f eps.

(** the outcome of a constrain_* helper that registers the new constraint [c] *)
Definition adds_constraint (h : heap F) (s : sketch) (c : con F) (r : heap F * sketch * out (res loc)) : Prop :=
  exists h' s' k, r = (h', s', Val (ROk k)) /\ k = length (h_cons h) /\ getK h' k = c /\
    s_cons s' = s_cons s ++ [k] /\ s_prims s' = s_prims s /\ s_next s' = s_next s /\
    (forall j, j < k -> getK h' j = getK h j) /\ length (h_cons h') = S k /\
    (forall p, view h' p = view h p) /\ (forall p, cell_ok h' p <-> cell_ok h p).
(** ... and of one that is refused *)
Definition refuses (s : sketch) (r : heap F * sketch * out (res loc)) : Prop := exists h' e, r = (h', s, Val (RErr e)).

(** the numbers compared by [==] on points, segments and rings, and the rest of their shape *)
Definition point_numbers (h : heap F) (l : loc) : list F :=
  let p := getP h l in [p_x p; p_y p; p_gx p; p_gy p].
Definition seg_numbers (h : heap F) (g : seg F) : list F :=
  match g with
  | SLine l => point_numbers h (l_start l) ++ point_numbers h (l_end l)
  | SArc a => point_numbers h (a_center a) ++ [a_radius a; a_sa a; a_ea a; a_gr a; a_gsa a; a_gea a]
  end.
Definition seg_kind (g : seg F) : option bool := match g with SLine _ => None | SArc a => Some (a_cw a) end.
Definition same_numbers (u v : list F) : Prop := Forall2 (fun a b => feq a b = true) u v.
Definition same_seg (h : heap F) (g g' : seg F) : Prop :=
  seg_kind g = seg_kind g' /\ same_numbers (seg_numbers h g) (seg_numbers h g').
Definition same_ring (h : heap F) (r r' : ring F) : Prop :=
  match r, r' with
  | RCircle c, RCircle c' =>
      same_numbers (point_numbers h (c_center c) ++ [c_radius c; c_gr c]) (point_numbers h (c_center c') ++ [c_radius c'; c_gr c'])
  | RSegments l, RSegments l' => Forall2 (same_seg h) l l'
  | _, _ => False
  end.
(** the same cells listed from another starting segment on *)
Definition rotated (r r' : ring F) : Prop :=
  exists a b, r = RSegments (a ++ b) /\ r' = RSegments (b ++ a).
End CellSpec.
