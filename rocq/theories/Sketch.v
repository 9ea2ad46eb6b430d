(** * Sketch  (src/sketch/mod.rs, src/error.rs) *)
From Coq Require Import List ZArith NArith Arith Bool.
From Verif Require Import Arith Vec Prim Cons.
Import ListNotations.

(** src/error.rs:4-16 *)
Inductive err :=
| MissingSketchReferences
| PrimitiveAlreadyInSketch
| PrimitiveNotFound (id : N)
| ConstraintAlreadyInSketch
| ConstraintNotFound.

(** [Result<T, ISOTopeError>] *)
Inductive res (T : Type) := ROk (x : T) | RErr (e : err).
Arguments ROk {T} _.  Arguments RErr {T} _.

(** sketch/mod.rs:25-29.  The BTreeMap is the list of its entries in key order, the
    VecDeque of constraint cells the list of their locations.  [Clone] (derived, line 24)
    clones the Rc handles, so a cloned sketch is an equal record over the same heap. *)
Record sketch := mkSketch { s_prims : list (N * pcell); s_next : N; s_cons : list loc }.

(** mod.rs:32-34 *)
Definition sketch_new : sketch := mkSketch [] 0%N [].

(** #[derive(Clone)], mod.rs:24: clones the map, the counter and the deque; cloning a
    PrimitiveCell / ConstraintCell (derived) clones the Rc, i.e. copies the location *)
Definition sketch_clone (s : sketch) : sketch :=
  mkSketch (map (fun kp => (fst kp, snd kp)) (s_prims s)) (s_next s) (map (fun k => k) (s_cons s)).

(** [BTreeMap::insert / remove / get] on the sorted entry list *)
Fixpoint bt_insert (k : N) (v : pcell) (m : list (N * pcell)) : list (N * pcell) :=
  match m with
  | [] => [(k, v)]
  | (k', v') :: m' =>
      if (k <? k')%N then (k, v) :: m
      else if (k =? k')%N then (k, v) :: m'
      else (k', v') :: bt_insert k v m'
  end.
Fixpoint bt_get (k : N) (m : list (N * pcell)) : option pcell :=
  match m with
  | [] => None
  | (k', v') :: m' => if (k =? k')%N then Some v' else bt_get k m'
  end.
Fixpoint bt_remove (k : N) (m : list (N * pcell)) : list (N * pcell) :=
  match m with
  | [] => []
  | (k', v') :: m' => if (k =? k')%N then m' else (k', v') :: bt_remove k m'
  end.

(** u64 arithmetic, release mode (wrapping; a debug build panics instead) *)
Definition u64_max1 : N := 18446744073709551616%N.               (* 2^64 *)
Definition u64_succ (n : N) : N := ((n + 1) mod u64_max1)%N.
Definition u64_pred (n : N) : N := ((n + (u64_max1 - 1)) mod u64_max1)%N.

(** [self.primitives.iter().any(|(_, p)| p == c)] *)
Definition has_prim (s : sketch) (c : pcell) : bool :=
  existsb (fun kp => pcell_eqb (snd kp) c) (s_prims s).
(** [self.constraints.iter().any(|c| c == k)] (pointer equality, constraints/mod.rs:144-148) *)
Definition has_con (s : sketch) (k : loc) : bool := existsb (fun c => Nat.eqb c k) (s_cons s).

Section Sketch.
Context {F : Type} {A : Arith F}.

(** mod.rs:36-52 *)
Definition add_primitive (h : heap F) (s : sketch) (c : pcell) : sketch * res N :=
  if negb (forallb (has_prim s) (prim_refs h c)) then (s, RErr MissingSketchReferences)
  else if has_prim s c then (s, RErr PrimitiveAlreadyInSketch)
  else
    let next := u64_succ (s_next s) in
    (mkSketch (bt_insert (s_next s) c (s_prims s)) next (s_cons s), ROk (u64_pred next)).

(** mod.rs:54-58, 60-68, 70-87: allocate the cell, register it, return the handle *)
Definition add_point2 (h : heap F) (s : sketch) (x y : F) : heap F * sketch * res loc :=
  let (h', l) := allocP h (Point2_new x y) in
  match add_primitive h' s (PPoint l) with
  | (s', ROk _) => (h', s', ROk l)
  | (s', RErr e) => (h', s', RErr e)
  end.
Definition add_line (h : heap F) (s : sketch) (st en : loc) : heap F * sketch * res loc :=
  let (h', l) := allocL h (mkLine st en) in
  match add_primitive h' s (PLine l) with
  | (s', ROk _) => (h', s', ROk l)
  | (s', RErr e) => (h', s', RErr e)
  end.
Definition add_arc (h : heap F) (s : sketch) (c : loc) (r : F) (cw : bool) (sa ea : F)
  : heap F * sketch * res loc :=
  let (h', l) := allocA h (Arc_new c r cw sa ea) in
  match add_primitive h' s (PArc l) with
  | (s', ROk _) => (h', s', ROk l)
  | (s', RErr e) => (h', s', RErr e)
  end.

(** mod.rs:157-172 *)
Definition add_constraint (h : heap F) (s : sketch) (k : loc) : sketch * res unit :=
  if negb (forallb (has_prim s) (con_refs (getK h k))) then (s, RErr MissingSketchReferences)
  else if has_con s k then (s, RErr ConstraintAlreadyInSketch)
  else (mkSketch (s_prims s) (s_next s) (s_cons s ++ [k]), ROk tt).

(** mod.rs:89-151: the five constrain_* helpers: X::new (which may panic on a non-finite
    parameter), allocate, add_constraint, return the handle. *)
Definition constrain (h : heap F) (s : sketch) (c : con F) : heap F * sketch * out (res loc) :=
  if negb (con_new_ok c) then (h, s, Panic)
  else
    let (h', k) := allocK h c in
    match add_constraint h' s k with
    | (s', ROk _) => (h', s', Val (ROk k))
    | (s', RErr e) => (h', s', Val (RErr e))
    end.
Definition constrain_perpendicular_lines h s l1 l2 := constrain h s (PerpendicularLines l1 l2). (* 89-99 *)
Definition constrain_parallel_lines h s l1 l2 := constrain h s (ParallelLines l1 l2).           (* 101-109 *)
Definition constrain_distance_euclidean h s p1 p2 d := constrain h s (EuclideanDistance p1 p2 d). (* 111-124 *)
Definition constrain_fix_point h s p x y := constrain h s (FixPoint p x y).                     (* 126-134 *)
Definition constrain_angle_between_points h s p1 p2 pm a :=                                     (* 136-151 *)
  constrain h s (AngleBetweenPoints p1 p2 pm a).

(** mod.rs:178-184 *)
Definition delete_primitive (s : sketch) (id : N) : sketch * res unit :=
  match bt_get id (s_prims s) with
  | None => (s, RErr (PrimitiveNotFound id))
  | Some _ => (mkSketch (bt_remove id (s_prims s)) (s_next s) (s_cons s), ROk tt)
  end.

(** mod.rs:186-195.  [retain(|c| c == &constraint)] keeps the given constraint. *)
Definition delete_constraint (s : sketch) (k : loc) : sketch * res unit :=
  let kept := filter (fun c => Nat.eqb c k) (s_cons s) in
  (mkSketch (s_prims s) (s_next s) kept,
   if Nat.eqb (length (s_cons s)) (length kept) then RErr ConstraintNotFound else ROk tt).

Definition get_num_primitives (s : sketch) : nat := length (s_prims s).          (* 153-155 *)
Definition get_num_constraints (s : sketch) : nat := length (s_cons s).          (* 174-176 *)

(** registered cells in id order: [self.primitives.iter()] *)
Definition cells (s : sketch) : list pcell := map snd (s_prims s).

(** mod.rs:205-211 *)
Definition get_n_dofs (h : heap F) (s : sketch) : nat :=
  fold_left (fun n c => n + length (prim_data h c)) (cells s) 0.
(** mod.rs:213-224 *)
Definition get_data (h : heap F) (s : sketch) : vec F := flat_map (prim_data h) (cells s).
(** mod.rs:226-232 *)
Definition get_loss (h : heap F) (s : sketch) : F :=
  fold_left (fun acc k => acc +f loss_value h (getK h k)) (s_cons s) f0.
(** mod.rs:260-266 *)
Definition get_loss_per_constraint (h : heap F) (s : sketch) : vec F :=
  map (fun k => loss_value h (getK h k)) (s_cons s).

(** the zero_gradient loop: mod.rs:235-237, 272-274 *)
Definition zero_all (s : sketch) (h : heap F) : heap F := fold_left prim_zero (cells s) h.
(** the stored gradients in id order *)
Definition stored_gradient (s : sketch) (h : heap F) : vec F := flat_map (prim_grad h) (cells s).

(** mod.rs:234-258 *)
Definition get_gradient (s : sketch) : M F (vec F) := fun h =>
  mbind (mfor (s_cons s) (fun k h => update_gradient (getK h k) h)) (fun _ h =>
    mbind (massert (forallb (fun c => all_finite (prim_grad h c)) (cells s)))
          (fun _ => mret (stored_gradient s h)) h)
    (zero_all s h).

(** mod.rs:268-290 *)
Fixpoint jacobian_rows (s : sketch) (ks : list loc) : M F (mat F) :=
  match ks with
  | [] => mret []
  | k :: ks' => fun h =>
      mbind (fun h => update_gradient (getK h k) h) (fun _ h =>
        mbind (jacobian_rows s ks') (fun rows => mret (stored_gradient s h :: rows)) h)
        (zero_all s h)
  end.
Definition get_jacobian (s : sketch) : M F (mat F) := jacobian_rows s (s_cons s).

(** mod.rs:292-300 *)
Fixpoint set_data_loop (cs : list pcell) (d : vec F) : M F unit :=
  match cs with
  | [] => mret tt
  | c :: cs' => fun h =>
      let n := length (prim_data h c) in
      mbind (prim_set_data c (firstn n d)) (fun _ => set_data_loop cs' (skipn n d)) h
  end.
Definition set_data (s : sketch) (d : vec F) : M F unit := fun h =>
  mbind (massert (Nat.eqb (length d) (get_n_dofs h s))) (fun _ => set_data_loop (cells s) d) h.

(** mod.rs:345-356 *)
Definition get_all_points (h : heap F) (s : sketch) : list (N * point F) :=
  flat_map (fun kp => match snd kp with PPoint l => [(fst kp, getP h l)] | _ => [] end)
           (s_prims s).
(** mod.rs:358-363 *)
Definition get_primitive_id (s : sketch) (c : pcell) : option N :=
  option_map fst (find (fun kp => pcell_eqb c (snd kp)) (s_prims s)).
(** mod.rs:365-367 *)
Definition get_primitive_by_id (s : sketch) (id : N) : option pcell := bt_get id (s_prims s).

(** mod.rs:303-342 check_gradients (finite-difference test helper; the println! calls are
    not modelled).  The loop 320-333 over the coordinates of one primitive: write x + eps e_i,
    read the loss of the constraint, write x back. *)
Fixpoint check_coords (c : pcell) (orig : vec F) (eps loss0 : F) (k : loc) (is : list nat)
  : M F (vec F) :=
  match is with
  | [] => mret []
  | i :: is' =>
      mbind (prim_set_data c (lset orig i (nth i orig f0 +f eps))) (fun _ h =>
        let new_loss := loss_value h (getK h k) in
        mbind (prim_set_data c orig) (fun _ =>
          mbind (check_coords c orig eps loss0 k is') (fun r =>
            mret ((new_loss -f loss0) /f eps :: r))) h)
  end.
Definition check_gradients (s : sketch) (eps : F) (k : loc) (check_eps : F) : M F unit := fun h =>
  mbind (get_gradient s) (fun _ h =>
    let loss0 := loss_value h (getK h k) in
    mfor (cells s) (fun c h =>
      let orig := prim_data h c in
      let analytical := prim_grad h c in
      mbind (massert (Nat.eqb (length orig) (length analytical))) (fun _ =>
        mbind (check_coords c orig eps loss0 k (seq 0 (length orig))) (fun num =>
          massert (flt (vnorm (vsub num analytical)) check_eps))) h) h) h.

End Sketch.
