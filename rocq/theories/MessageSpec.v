(** * Vocabulary of C87: decimal numbers, and what each error says *)
From Coq Require Import List NArith Ascii String.
From Verif Require Import Arith Vec Prim Cons Sketch Solve Api Spec.
Import ListNotations.
Local Open Scope string_scope.

(** reading a decimal number from left to right *)
Definition digit_value (c : ascii) : option N :=
  let n := N_of_ascii c in if ((48 <=? n) && (n <=? 57))%N%bool then Some (n - 48)%N else None.
Fixpoint read_from (acc : N) (t : string) : option N :=
  match t with
  | "" => Some acc
  | String c t => match digit_value c with Some d => read_from (10 * acc + d)%N t | None => None end
  end.
(** [t] is the usual way to write [n]: not empty, and no leading zeros *)
Definition decimal (t : string) (n : N) : Prop :=
  read_from 0 t = Some n /\ match t with "" => False | String c r => c = "0"%char -> r = "" end.

Definition u64 (n : N) : Prop := (n < 2 ^ 64)%N.
Definition u64_error (e : err) : Prop := match e with PrimitiveNotFound id => u64 id | _ => True end.

(** what the handles are that a call adds to the sketch, if it adds something *)
Definition added_refs {F} {A : Arith F} (h : heap F) (o : op F) : list pcell :=
  match o with
  | AddPrimitive c => prim_refs h c
  | AddLine a b => [PPoint a; PPoint b]
  | AddArc c _ _ _ _ => [PPoint c]
  | AddConstraint k => con_refs (getK h k)
  | Constrain c => con_refs c
  | _ => []
  end.
(** what the text of error [e] says about the call [o] in the state [st] *)
Definition says {F} {A : Arith F} (st : heap F * sketch) (o : op F) (e : err) : Prop :=
  let (h, s) := st in
  match e with
  | MissingSketchReferences => exists r, In r (added_refs h o) /\ ~ registered s r
  | PrimitiveAlreadyInSketch => exists c, o = AddPrimitive c /\ registered s c
  | PrimitiveNotFound id => o = DeletePrimitive id /\ get_primitive_by_id s id = None
  | ConstraintAlreadyInSketch => exists k, o = AddConstraint k /\ In k (s_cons s)
  | ConstraintNotFound => exists k, o = DeleteConstraint k /\ ~ In k (s_cons s)
  end.
