(** * Vocabulary of the binary64 properties (standard library only) *)
From Coq Require Import List ZArith Bool Floats.SpecFloat.
From Verif Require Import Arith Vec Prim Cons Sketch Solve Api Spec SerdeSpec ArithF.
Import ListNotations.

(** [x] is a binary64 number (in its canonical form) with |x| <= b; neither infinity nor NaN *)
Definition at_most (b x : spec_float) : Prop :=
  valid_binary 53 1024 x = true /\ SFleb (SFabs x) b = true.
Definition one64 : spec_float := S754_finite false 4503599627370496 (-52).
Definition four64 : spec_float := S754_finite false 4503599627370496 (-50).
(** 2^100, about 1.27e30 *)
Definition two100 : spec_float := S754_finite false 4503599627370496 48.
Definition moderate (x : spec_float) : Prop := at_most two100 x.

(** what is assumed of the platform's libm *)
Definition good_libm (L : libm) : Prop :=
  (forall x, valid_binary 53 1024 x = true -> fin64 x = true -> at_most one64 (lm_sin L x) /\ at_most one64 (lm_cos L x)) /\
  (forall x, at_most one64 x -> at_most four64 (lm_acos L x)).

(** the ends of a line differ by at least 1e-6 (the computed difference) in x or in y *)
Definition ends_apart (L : libm) (h : heap spec_float) (l : loc) : Prop := let A := ArithF L in
  exists xs ys xe ye, prim_data h (PPoint (l_start (getL h l))) = [xs; ys] /\ prim_data h (PPoint (l_end (getL h l))) = [xe; ye] /\
    (SFleb (lit64 1 6) (SFabs (SFsub 53 1024 xe xs)) = true \/ SFleb (lit64 1 6) (SFabs (SFsub 53 1024 ye ys)) = true).

(** the data and parameters constraint [k] works on are moderate; lines whose length it divides by are not too short *)
Definition moderate_con (L : libm) (h : heap spec_float) (k : loc) : Prop := let A := ArithF L in
  (forall x, reads h k x -> Forall moderate (prim_data h x)) /\
  Forall moderate (con_params (getK h k)) /\
  match getK h k with
  | EqualLength l1 l2 | ParallelLines l1 l2 | PerpendicularLines l1 l2 => ends_apart L h l1 /\ ends_apart L h l2
  | _ => True
  end.
