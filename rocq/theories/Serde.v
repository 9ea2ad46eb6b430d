(** * Serialisation  (derived Serialize/Deserialize; serde with feature "rc", Cargo.toml)

    The serialised form is modelled at the level of serde's data model (a tree of values);
    the concrete format (JSON, ...) is outside the repository.  serde's "rc" feature
    serialises the content of an [Rc] at each occurrence and deserialises every occurrence
    into a new allocation. *)
From Coq Require Import List ZArith NArith Arith Bool.
From Verif Require Import Arith Vec Prim Cons Sketch.
Import ListNotations.

Section Serde.
Context {F : Type} {A : Arith F}.

(** Trees: Point2 (point2.rs:9-15), Line (line.rs:13-20), Arc (arc.rs:12-21),
    Circle (circle.rs:12-19) *)
Record tline := mkTLine { tl_start : point F; tl_end : point F }.
Record tarc := mkTArc { ta_center : point F; ta_data : F * F * F; ta_grad : F * F * F; ta_cw : bool }.
Record tcircle := mkTCircle { tc_center : point F; tc_data : F; tc_grad : F }.
Inductive tprim := TPoint (p : point F) | TLine (l : tline) | TArc (a : tarc) | TCircle (c : tcircle).
Inductive tcon :=
| TAngle (p1 p2 pm : point F) (d : F)
| TArcEnd (a : tarc) (p : point F)
| TArcStart (a : tarc) (p : point F)
| TEuclid (p1 p2 : point F) (d : F)
| THDist (p1 p2 : point F) (d : F)
| TVDist (p1 p2 : point F) (d : F)
| TFix (p : point F) (x y : F)
| TEqual (l1 l2 : tline)
| THLine (l : tline)
| TVLine (l : tline)
| TParallel (l1 l2 : tline)
| TPerp (l1 l2 : tline).
Record tsketch := mkTSketch { t_prims : list (N * tprim); t_next : N; t_cons : list tcon }.

(** ** Serialize *)
Definition ser_line (h : heap F) (l : loc) : tline :=
  mkTLine (getP h (l_start (getL h l))) (getP h (l_end (getL h l))).
Definition ser_arc (h : heap F) (l : loc) : tarc :=
  let a := getA h l in
  mkTArc (getP h (a_center a)) (a_radius a, a_sa a, a_ea a) (a_gr a, a_gsa a, a_gea a) (a_cw a).
Definition ser_circle (h : heap F) (l : loc) : tcircle :=
  let c := getC h l in mkTCircle (getP h (c_center c)) (c_radius c) (c_gr c).
Definition ser_prim (h : heap F) (c : pcell) : tprim :=
  match c with
  | PPoint l => TPoint (getP h l)
  | PLine l => TLine (ser_line h l)
  | PArc l => TArc (ser_arc h l)
  | PCircle l => TCircle (ser_circle h l)
  end.
Definition ser_con (h : heap F) (c : con F) : tcon :=
  match c with
  | AngleBetweenPoints p1 p2 pm d => TAngle (getP h p1) (getP h p2) (getP h pm) d
  | ArcEndPointCoincident a p => TArcEnd (ser_arc h a) (getP h p)
  | ArcStartPointCoincident a p => TArcStart (ser_arc h a) (getP h p)
  | EuclideanDistance p1 p2 d => TEuclid (getP h p1) (getP h p2) d
  | HorizontalDistance p1 p2 d => THDist (getP h p1) (getP h p2) d
  | VerticalDistance p1 p2 d => TVDist (getP h p1) (getP h p2) d
  | FixPoint p x y => TFix (getP h p) x y
  | EqualLength l1 l2 => TEqual (ser_line h l1) (ser_line h l2)
  | HorizontalLine l => THLine (ser_line h l)
  | VerticalLine l => TVLine (ser_line h l)
  | ParallelLines l1 l2 => TParallel (ser_line h l1) (ser_line h l2)
  | PerpendicularLines l1 l2 => TPerp (ser_line h l1) (ser_line h l2)
  end.
Definition serialize (h : heap F) (s : sketch) : tsketch :=
  mkTSketch (map (fun kp => (fst kp, ser_prim h (snd kp))) (s_prims s)) (s_next s)
            (map (fun k => ser_con h (getK h k)) (s_cons s)).

(** ** Deserialize: every Rc becomes a new cell *)
Definition de_line (h : heap F) (t : tline) : heap F * loc :=
  let (h1, a) := allocP h (tl_start t) in
  let (h2, b) := allocP h1 (tl_end t) in
  allocL h2 (mkLine a b).
Definition de_arc (h : heap F) (t : tarc) : heap F * loc :=
  let (h1, c) := allocP h (ta_center t) in
  let '(r, sa, ea) := ta_data t in
  let '(gr, gsa, gea) := ta_grad t in
  allocA h1 (mkArc c r sa ea gr gsa gea (ta_cw t)).
Definition de_circle (h : heap F) (t : tcircle) : heap F * loc :=
  let (h1, c) := allocP h (tc_center t) in
  allocC h1 (mkCircle c (tc_data t) (tc_grad t)).
Definition de_prim (h : heap F) (t : tprim) : heap F * pcell :=
  match t with
  | TPoint p => let (h1, l) := allocP h p in (h1, PPoint l)
  | TLine l => let (h1, x) := de_line h l in (h1, PLine x)
  | TArc a => let (h1, x) := de_arc h a in (h1, PArc x)
  | TCircle c => let (h1, x) := de_circle h c in (h1, PCircle x)
  end.
Definition de_con (h : heap F) (t : tcon) : heap F * con F :=
  match t with
  | TAngle p1 p2 pm d =>
      let (h1, a) := allocP h p1 in let (h2, b) := allocP h1 p2 in
      let (h3, c) := allocP h2 pm in (h3, AngleBetweenPoints a b c d)
  | TArcEnd a p => let (h1, x) := de_arc h a in let (h2, y) := allocP h1 p in
                   (h2, ArcEndPointCoincident x y)
  | TArcStart a p => let (h1, x) := de_arc h a in let (h2, y) := allocP h1 p in
                     (h2, ArcStartPointCoincident x y)
  | TEuclid p1 p2 d => let (h1, a) := allocP h p1 in let (h2, b) := allocP h1 p2 in
                       (h2, EuclideanDistance a b d)
  | THDist p1 p2 d => let (h1, a) := allocP h p1 in let (h2, b) := allocP h1 p2 in
                      (h2, HorizontalDistance a b d)
  | TVDist p1 p2 d => let (h1, a) := allocP h p1 in let (h2, b) := allocP h1 p2 in
                      (h2, VerticalDistance a b d)
  | TFix p x y => let (h1, a) := allocP h p in (h1, FixPoint a x y)
  | TEqual l1 l2 => let (h1, a) := de_line h l1 in let (h2, b) := de_line h1 l2 in
                    (h2, EqualLength a b)
  | THLine l => let (h1, a) := de_line h l in (h1, HorizontalLine a)
  | TVLine l => let (h1, a) := de_line h l in (h1, VerticalLine a)
  | TParallel l1 l2 => let (h1, a) := de_line h l1 in let (h2, b) := de_line h1 l2 in
                       (h2, ParallelLines a b)
  | TPerp l1 l2 => let (h1, a) := de_line h l1 in let (h2, b) := de_line h1 l2 in
                   (h2, PerpendicularLines a b)
  end.
Fixpoint de_prims (h : heap F) (l : list (N * tprim)) : heap F * list (N * pcell) :=
  match l with
  | [] => (h, [])
  | (k, t) :: l' =>
      let (h1, c) := de_prim h t in
      let (h2, r) := de_prims h1 l' in (h2, (k, c) :: r)
  end.
Fixpoint de_cons (h : heap F) (l : list tcon) : heap F * list loc :=
  match l with
  | [] => (h, [])
  | t :: l' =>
      let (h1, c) := de_con h t in
      let (h2, k) := allocK h1 c in
      let (h3, r) := de_cons h2 l' in (h3, k :: r)
  end.
(** The map entries are inserted one by one into a new BTreeMap. *)
Definition deserialize (t : tsketch) (h : heap F) : heap F * sketch :=
  let (h1, ps) := de_prims h (t_prims t) in
  let (h2, ks) := de_cons h1 (t_cons t) in
  (h2, mkSketch (fold_left (fun m kp => bt_insert (fst kp) (snd kp) m) ps []) (t_next t) ks).

End Serde.
Arguments tline : clear implicits.
Arguments tarc : clear implicits.
Arguments tcircle : clear implicits.
Arguments tprim : clear implicits.
Arguments tcon : clear implicits.
Arguments tsketch : clear implicits.
