(** * C68: binary64 rings and the real geometry *)
From Coq Require Import List ZArith NArith Arith Bool Reals Permutation Floats.SpecFloat.
From Verif Require Import Arith Vec Prim Cons Sketch Decomp Spec ArithR ArithF DecompSpec ExactDecomp DecompWitness RoundSpec RoundTurn RoundRem RoundAngle RoundArea RoundExamples.
Import ListNotations.
Local Open Scope R_scope.

(** The rings found in binary64 are those of the real points the coordinates stand for, and so are the unused
    lines, provided that lines leaving a point are at least 2^-46 apart in direction and no walk encloses next
    to nothing.  (The order of the rings may differ: areas are compared after rounding.) *)
Theorem C68 : forall (L : libm) (M : R) (h : heap spec_float) (s : sketch), let A := ArithF L in
  accurate_atan2 L -> valid h s -> tame L M h s -> / 2 ^ 400 <= M <= 2 ^ 400 ->
  directions_apart (exact_heap h) s -> areas_clear M (exact_heap h) s ->
  Permutation (fst (find_rings (exact_heap h) s)) (map exact_ring (fst (find_rings h s))) /\
  snd (find_rings (exact_heap h) s) = map exact_seg (snd (find_rings h s)).
Proof. exact C68_lemma. Qed.
(** the two squares of C37, in binary64 *)
Example C68_ex : accurate_atan2 round_libm /\ @valid _ (ArithF round_libm) two64 two_sketch /\ tame round_libm 8 two64 two_sketch /\ / 2 ^ 400 <= 8 <= 2 ^ 400 /\
  directions_apart (exact_heap two64) two_sketch /\ areas_clear 8 (exact_heap two64) two_sketch /\
  find_rings (exact_heap two64) two_sketch = ([left_sq; right_sq], []).
Proof.
  split; [exact round_accurate|]. split; [apply two64_valid|]. split; [apply two64_tame|]. split; [exact pow400|]. split; [exact two64_apart|]. split; [exact two64_clear|].
  rewrite two64_exact. exact two_rings.
Qed.

(** the binary64 remainder is exact *)
Theorem C68_remainder : forall (L : libm) x y, let A := ArithF L in finite64 x -> finite64 y -> value y <> 0 ->
  exact64 (frem x y) = frem (exact64 x) (exact64 y).
Proof. exact rem_exact_lemma. Qed.
Example C68_remainder_ex : finite64 tau64 /\ finite64 pi64 /\ value pi64 <> 0.
Proof. split; [exact tau_fin|]. split; [exact pi_fin|]. fold P. pose proof P_range. intros E. rewrite E in *. destruct H as [H _]. apply (Rlt_irrefl 0). apply Rlt_trans with 3; auto. apply (IZR_lt 0 3). reflexivity. Qed.

(** the computed turn angle of two directions in [-pi, pi] is off by at most 15 * 2^-52, up to whole turns *)
Theorem C68_turn : forall (L : libm) a b, let A := ArithF L in finite64 a -> finite64 b -> Rabs (value a) <= value pi64 -> Rabs (value b) <= value pi64 ->
  let t := angle_difference (frem (a +f fpi) (f2 *f fpi)) b in
  finite64 t /\ 0 <= value t <= 2 * value pi64 /\ exists k, Rabs (value t - (value b - (value a + PI)) + 2 * PI * IZR k) <= 15 / 2 ^ 52.
Proof. exact turn_float. Qed.
Example C68_turn_ex : finite64 pi64 /\ finite64 (SFopp pi64) /\ Rabs (value pi64) <= value pi64 /\ Rabs (value (SFopp pi64)) <= value pi64.
Proof. exact turn_ex. Qed.
Print Assumptions C68.
Print Assumptions C68_remainder.
Print Assumptions C68_turn.
