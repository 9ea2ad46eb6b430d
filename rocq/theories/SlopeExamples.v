(** * Sketches that meet the hypotheses of C86 *)
From Coq Require Import List ZArith NArith Arith Bool Reals Lra Lia Permutation Floats.SpecFloat.
From Flocq Require Import Core.Core IEEE754.BinarySingleNaN.
From Verif Require Import Arith ArithR ArithF Vec Prim Cons Sketch Solve Api Spec SerdeSpec SpecLemmas WfLemmas FloatLemmas FloatSpec FloatBound SolverSpec LinearSpec TreeSpec
  ExactLemmas ExactSpec RoundSpec RoundTurn RoundExamples SolverWitness DecompExamples AccuracySpec AccuracyLemmas AccuracyForms AccuracyExamples SlopeSpec.
Import ListNotations.
Local Open Scope R_scope.

(** the sketch of C84: a distance, a horizontal distance, two parallel lines and the end of an arc *)
Lemma acc_far : 1 <= Rabs (fst (dirR (cfg_of (exact_heap acc_heap)) (exact_heap acc_heap) 0%nat)) /\ 1 <= Rabs (fst (dirR (cfg_of (exact_heap acc_heap)) (exact_heap acc_heap) 1%nat)).
Proof.
  split.
  - change (1 <= Rabs (value ax - 0)). rewrite v_ax. rewrite Rabs_pos_eq; lra.
  - change (1 <= Rabs (value i3 - 0)). rewrite v_3. rewrite Rabs_pos_eq; lra.
Qed.
Lemma len_far v : 1 <= Rabs (fst v) -> 1 <= len v.
Proof. intros B. destruct (comp_le v) as [C _]. lra. Qed.
Lemma acc_smooth L k : In k (s_cons acc_sketch) -> smooth L acc_M acc_heap k.
Proof.
  intros Hk. split; [now apply acc_measurable|]. cbn [s_cons acc_sketch In] in Hk. destruct Hk as [<-|[<-|[<-|[<-|[]]]]]; try exact I.
  apply Rle_trans with 1; [rewrite <- Rinv_1; apply Rinv_le_contravar; [lra | simpl; lra]|]. apply len_far. change (1 <= Rabs (0 - value ax)). rewrite v_ax. rewrite Rabs_minus_sym, Rabs_pos_eq; lra.
Qed.
Lemma acc_unit k : In k (s_cons acc_sketch) -> slope_unit acc_M acc_heap k <= 2 ^ 80.
Proof.
  intros Hk. assert (E : acc_M * acc_M = 2 ^ 80) by (unfold acc_M; rewrite <- pow_add; reflexivity). assert (B : 1 <= acc_M) by (rewrite acc_M_val; lra).
  cbn [s_cons acc_sketch In] in Hk. destruct Hk as [<-|[<-|[<-|[<-|[]]]]].
  - change (acc_M <= 2 ^ 80). nra.
  - change (acc_M <= 2 ^ 80). nra.
  - destruct acc_far as [A1 A2]. apply len_far in A1. apply len_far in A2. change (/ Rmin (len (dirR (cfg_of (exact_heap acc_heap)) (exact_heap acc_heap) 0%nat)) (len (dirR (cfg_of (exact_heap acc_heap)) (exact_heap acc_heap) 1%nat)) <= 2 ^ 80).
    apply Rle_trans with 1; [rewrite <- Rinv_1; apply Rinv_le_contravar; [lra | now apply Rmin_glb] | nra].
  - change (acc_M * Rmax 1 acc_M <= 2 ^ 80). rewrite Rmax_right by auto. lra.
Qed.
Lemma p80 : / 2 ^ 150 <= 2 ^ 80 <= 2 ^ 200.
Proof. split; [|apply Rle_pow; [lra | lia]]. assert (1 <= 2 ^ 150) by (apply pow_R1_Rle; lra). assert (1 <= 2 ^ 80) by (apply pow_R1_Rle; lra). apply Rle_trans with 1; auto. rewrite <- Rinv_1. apply Rinv_le_contravar; lra. Qed.

(** a point to be moved to a place: both kinds of sketch without plateaus *)
Lemma fix_no_plateau L x y u v : fin64 x = true -> fin64 y = true -> fin64 u = true -> fin64 v = true -> no_plateau L 1 (fix_heap x y u v) fix_sketch.
Proof.
  intros Fx Fy Fu Fv. left. split; [reflexivity|]. split; [|split].
  - split; [intros c r (id & Hid) Hr|].
    + cbn in Hid. destruct id as [|id]; [|destruct id; discriminate]. injection Hid as <-. destruct Hr.
    + intros k r [<-|[]] [<-|[]]. exists 0%N. reflexivity.
  - exists [(0%nat, 0%nat)]. split; [apply Permutation_refl|]. split; [reflexivity|]. split; [intros j q []|exact I].
  - intros k [<-|[]]. reflexivity.
Qed.

(** a point that two constraints want at two places, halfway between them *)
Definition torn_heap : heap spec_float := let z := S754_zero false in let one := of_Z64 1 in
  mkHeap [mkPoint z z z z] [] [] [] [FixPoint 0%nat one z; FixPoint 0%nat (SFopp one) z].
Definition torn_sketch : sketch := mkSketch [(0%N, PPoint 0%nat)] 1%N [0%nat; 1%nat].
Lemma torn_run L : let A := ArithF L in exists rs, run nopinv init [AddPoint2 (S754_zero false) (S754_zero false);
  Constrain (FixPoint 0%nat (of_Z64 1) (S754_zero false)); Constrain (FixPoint 0%nat (SFopp (of_Z64 1)) (S754_zero false))] rs (torn_heap, torn_sketch).
Proof. intros A. eexists. repeat (first [apply run_nil | eapply run_cons; [okF | stepA |]]). Qed.
Lemma torn_smooth L k : In k (s_cons torn_sketch) -> smooth L 4 torn_heap k.
Proof.
  assert (W : forall x, fin64 x = true -> valid_binary 53 1024 x = true -> SFleb (SFabs x) (S754_finite false 4503599627370496 (-50)) = true -> within 4 x) by (intros x F V B; apply within_small; [split; assumption | exact B]).
  intros Hk. split; [|destruct Hk as [<-|[<-|[]]]; exact I]. split; [|split; [|split; [|destruct Hk as [<-|[<-|[]]]; exact I]]].
  - intros p (r & Hr & Hx). destruct Hk as [<-|[<-|[]]]; cbn in Hr; destruct Hr as [<-|[]]; destruct Hx as [Hx|[]]; injection Hx as ->; apply Forall_cons; try apply Forall_cons; try apply Forall_nil; apply W; reflexivity.
  - intros q (r & Hr & Hx). destruct Hk as [<-|[<-|[]]]; cbn in Hr; destruct Hr as [<-|[]]; destruct Hx as [Hx|[]]; discriminate Hx.
  - destruct Hk as [<-|[<-|[]]]; apply Forall_cons; try apply Forall_cons; try apply Forall_nil; apply W; reflexivity.
Qed.
Lemma torn_apart k : In k (s_cons torn_sketch) -> discrepancy torn_heap k = 1.
Proof.
  assert (V1 : value (of_Z64 1) = 1). { match goal with |- value ?x = _ => let y := eval vm_compute in x in change x with y end. rewrite val_fin. change (bp (-52)) with (/ 4503599627370496). lra. }
  assert (V2 : value (SFopp (of_Z64 1)) = - (1)). { match goal with |- value ?x = _ => let y := eval vm_compute in x in change x with y end. rewrite val_fin. change (bp (-52)) with (/ 4503599627370496). lra. }
  intros [<-|[<-|[]]].
  - change (sqrt (sq (0 - value (of_Z64 1)) + sq (0 - 0)) = 1). rewrite V1. unfold sq. replace ((0 - 1) * (0 - 1) + (0 - 0) * (0 - 0)) with 1 by ring. apply sqrt_1.
  - change (sqrt (sq (0 - value (SFopp (of_Z64 1))) + sq (0 - 0)) = 1). rewrite V2. unfold sq. replace ((0 - - (1)) * (0 - - (1)) + (0 - 0) * (0 - 0)) with 1 by ring. apply sqrt_1.
Qed.
Lemma torn_flat L : let A := ArithF L in exists h1 g, get_gradient torn_sketch torn_heap = (h1, Val g) /\ vnorm g = S754_zero false /\ vnorm_inf g = S754_zero false.
Proof.
  intros A. match goal with |- exists h1 g, ?t = _ /\ _ => let x := eval vm_compute in t in match x with (?a, Val ?b) => exists a, b end end.
  split; [vm_cast_no_check (eq_refl (get_gradient torn_sketch torn_heap))|]. split; vm_compute; reflexivity.
Qed.
