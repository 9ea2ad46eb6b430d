(** * Cases for interrupted runs *)
From Coq Require Import List ZArith NArith Bool Lia Sorting.Sorted Floats.SpecFloat.
From Verif Require Import Arith Vec Prim Cons Sketch Solve Spec SpecLemmas ArithF ScaleExamples MirrorExamples ResumeSpec.
Import ListNotations.

Ltac vld := constructor; simpl;
  [repeat constructor; reflexivity | repeat constructor; simpl; intuition discriminate | repeat constructor; simpl; intuition discriminate | 
   repeat split; intros l Hl; simpl in Hl; repeat first [exfalso; lia | destruct l as [|l]; [repeat constructor; simpl; lia|]]
  | intros c Hc; apply registered_sub in Hc; simpl in Hc; repeat (destruct Hc as [<-|Hc]; [simpl; lia|]); destruct Hc
  | intros k Hk; repeat (destruct Hk as [<-|Hk]; [lia|]); destruct Hk].
Section Chain.
Variable L : libm.
Let A := ArithF L.
Lemma chain_valid : @valid _ A chain_heap chain_sketch.
Proof. vld. Qed.
(** 25 iterations of gradient descent as 20 and 5 *)
Lemma chain_resumed : snd (@gd_run _ A chain_sketch chain_gd chain_heap) = Val (SOk 25) /\
  snd (@gd_run _ A chain_sketch (gd_budget 20 chain_gd) chain_heap) = Val (SOk 20) /\
  snd (@gd_run _ A chain_sketch (gd_budget 30 chain_gd) (fst (@gd_run _ A chain_sketch (gd_budget 20 chain_gd) chain_heap))) = Val (SOk 5).
Proof. split; [|split]; vm_compute; reflexivity. Qed.
(** BFGS: 6 iterations become 3 and 4 *)
Lemma chain_bfgs_resumed : snd (@bfgs_run _ A chain_sketch chain_bfgs chain_heap) = Val (SOk 6%N) /\
  snd (@bfgs_run _ A chain_sketch (bfgs_budget 3 chain_bfgs) chain_heap) = Val (SOk 3%N) /\
  snd (@bfgs_run _ A chain_sketch (bfgs_budget 47 chain_bfgs) (fst (@bfgs_run _ A chain_sketch (bfgs_budget 3 chain_bfgs) chain_heap))) = Val (SOk 4%N).
Proof. split; [|split]; vm_compute; reflexivity. Qed.
(** Gauss-Newton with a threshold that is reached after the first iteration *)
Definition one_gn := mkGN 2 (of_Z64 10) (two_to (-1)) (lit64 1 6).
Lemma chain_gn_resumed :
  @gn_run _ A unit_pinv chain_sketch one_gn chain_heap = @gn_run _ A unit_pinv chain_sketch (gn_budget 1 one_gn) chain_heap /\
  gn_max one_gn = 2%N /\
  @get_data _ A (fst (@gn_run _ A unit_pinv chain_sketch (gn_budget 1 one_gn) (fst (@gn_run _ A unit_pinv chain_sketch (gn_budget 1 one_gn) chain_heap)))) chain_sketch <>
  @get_data _ A (fst (@gn_run _ A unit_pinv chain_sketch (gn_budget 1 one_gn) chain_heap)) chain_sketch.
Proof. split; [vm_compute; reflexivity|]. split; [reflexivity|]. vm_compute. discriminate. Qed.
End Chain.
