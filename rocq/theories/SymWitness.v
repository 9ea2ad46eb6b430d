(** * In binary64 the order of the constraints matters (counterexample for C66) *)
From Coq Require Import List ZArith NArith Arith Bool Lia Permutation Floats.SpecFloat.
From Verif Require Import Arith Vec Prim Cons Sketch Solve Api Spec SolverSpec ArithF
  HeapLemmas SolveLemmas BookLemmas WfLemmas DataLemmas SpecLemmas StepLemmas SolverWitness.
Import ListNotations.

(** one point at the origin and three targets on the x axis: 2^53, 1 and 1 *)
Definition far : con spec_float := FixPoint 0 (lit64 9007199254740992 0) (lit64 0 0).
Definition near : con spec_float := FixPoint 0 (lit64 1 0) (lit64 0 0).
Definition ord_heap (l : list (con spec_float)) : heap spec_float :=
  let z := S754_zero false in mkHeap [mkPoint z z z z] [] [] [] l.
Definition ord_sketch (l : list loc) : sketch := mkSketch [(0%N, PPoint 0)] 1%N l.

Section W.
Variable L : libm.
Let A := ArithF L.
#[local] Existing Instance A.
Lemma ord_witness (pinv : mat spec_float -> spec_float -> pinv_res (mat spec_float)) :
  let P := mkGD 1 (gd_min_loss gd_default) (gd_min_grad gd_default) in
  exists h s L1 L2 rs1 rs2 h1 s1 h2 s2,
    valid h s /\ refs_closed h s /\ finite_data h s /\ Permutation L1 L2 /\
    run pinv (h, s) (map Constrain L1) rs1 (h1, s1) /\ run pinv (h, s) (map Constrain L2) rs2 (h2, s2) /\
    finite_data (fst (solve pinv (GradientBased P) s1 h1)) s1 /\
    prim_data (fst (solve pinv (GradientBased P) s2 h2)) (PPoint 0) <> prim_data (fst (solve pinv (GradientBased P) s1 h1)) (PPoint 0).
Proof.
  intros P. exists (ord_heap []), (ord_sketch []), [far; near; near], [near; near; far],
    [RetLoc 0; RetLoc 1; RetLoc 2], [RetLoc 0; RetLoc 1; RetLoc 2],
    (ord_heap [far; near; near]), (ord_sketch [0; 1; 2]), (ord_heap [near; near; far]), (ord_sketch [0; 1; 2]).
  assert (R : run pinv init [AddPoint2 (lit64 0 0) (lit64 0 0)] [RetLoc 0] (ord_heap [], ord_sketch [])) by goF.
  pose proof (reachable_valid pinv _ _ _ R eq_refl) as V.
  assert (R1 : run pinv (ord_heap [], ord_sketch []) (map Constrain [far; near; near]) [RetLoc 0; RetLoc 1; RetLoc 2]
    (ord_heap [far; near; near], ord_sketch [0; 1; 2])) by (simpl map; goF).
  assert (R2 : run pinv (ord_heap [], ord_sketch []) (map Constrain [near; near; far]) [RetLoc 0; RetLoc 1; RetLoc 2]
    (ord_heap [near; near; far], ord_sketch [0; 1; 2])) by (simpl map; goF).
  pose proof (reachable_valid pinv _ _ _ (run_app pinv _ _ _ _ _ _ _ R R1) eq_refl) as V1.
  split; [exact V|]. split; [| split; [apply (finite_iff _ _ (valid_keys _ _ V)); vm_compute; reflexivity|]].
  { split; [|intros k c []]. intros c d. rewrite (valid_reg _ _ _ V). simpl. intros [<-|[]] []. }
  split; [exact (Permutation_app_comm [far] [near; near])|]. split; [exact R1|]. split; [exact R2|]. split.
  - apply (C32_lemma _ (GradientBased P)); [exact V1 | apply (finite_iff _ _ (valid_keys _ _ V1)); vm_compute; reflexivity].
  - intros E. vm_compute in E. discriminate.
Qed.
End W.
