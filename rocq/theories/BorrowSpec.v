(** * The rule of RefCell (core::cell), and vocabulary of C64 *)
From Coq Require Import List Arith Bool.
From Verif Require Import Arith Vec Prim Cons Sketch Spec ExactSpec Borrow.
Import ListNotations.

(** A guard on [c] may be taken if the guards already [held] on [c] and the new one are all
    shared; otherwise borrow() or borrow_mut() panics. *)
Definition may_borrow (held : list (bool * cellid)) (x : bool) (c : cellid) : Prop :=
  forall y, In (y, c) held -> x = false /\ y = false.
(** no guard is refused while [g] runs *)
Inductive no_conflict (held : list (bool * cellid)) : guard -> Prop :=
| nc_intro : forall x c inner, may_borrow held x c ->
    (forall g, In g inner -> no_conflict ((x, c) :: held) g) -> no_conflict held (Guard x c inner).
Definition borrows_ok (held : list (bool * cellid)) (gs : list guard) : Prop := forall g, In g gs -> no_conflict held g.

(** somewhere during [g] a guard on [c] is taken, exclusive if [x] *)
Inductive takes : guard -> bool -> cellid -> Prop :=
| tk_here : forall x c inner, takes (Guard x c inner) x c
| tk_inner : forall x c inner g y d, In g inner -> takes g y d -> takes (Guard x c inner) y d.
Definition writes (gs : list guard) (c : cellid) : Prop := exists g, In g gs /\ takes g true c.

Definition read_only (o : call) : bool :=
  match o with CGetGradient | CGetJacobian | CSetData | CCheckGradients _ _ => false | _ => true end.

Definition method (o : call) : bool :=
  match o with
  | CNumDofs | CGetData | CGetLosses | CGetAllPoints | CGetGradient | CGetJacobian | CSetData => true
  | _ => false
  end.

(** the cells these methods may look at *)
Definition reads {F} {A : Arith F} (h : heap F) (s : sketch) (c : cellid) : Prop :=
  match c with
  | IPrim c => registered s c \/ (exists k, In k (s_cons s) /\ In c (deps h (getK h k)))
  | ICon k => In k (s_cons s)
  end.
