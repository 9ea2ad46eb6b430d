(** * Lemmas for C55 - C60 that need the solvers or binary64 *)
From Coq Require Import List ZArith NArith Arith Bool Lia Sorted Floats.SpecFloat.
From Verif Require Import Arith Vec Prim Cons Sketch Solve Decomp Api Spec CellSpec SolverSpec SerdeSpec ArithF
  HeapLemmas SpecLemmas CellForms StepLemmas SolverWitness.
Import ListNotations.

Section L.
Context {F : Type} {A : Arith F}.
Lemma C55_gd_lemma s (h h' : heap F) n : valid h s ->
  gd_run s gd_default h = (h', Val (SOk n)) ->
  flt (get_loss h' s) (flit 1 14) = true \/
  (exists g, snd (get_gradient s h') = Val g /\ flt (vnorm g) (flit 1 10) = true) \/
  N.of_nat n = 10000%N.
Proof. intros V E. destruct (C22_gd_lemma _ _ _ _ _ V E) as [H|[H|H]]; auto. right. right. rewrite H. apply N2Nat.id. Qed.
Lemma C55_bfgs_lemma s (h h' : heap F) n : valid h s ->
  bfgs_run s bfgs_default h = (h', Val (SOk n)) ->
  flt (get_loss h' s) (flit 1 16) = true \/
  (exists g, snd (get_gradient s h') = Val g /\ flt (vnorm_inf g) (flit 1 8) = true) \/
  n = 1000%N.
Proof. intros V E. exact (C22_bfgs_lemma _ _ _ _ _ V E). Qed.
Lemma C55_gn_lemma pinv s P (h h' : heap F) n max min_loss step :
  (P = gn_default /\ max = 10000%N /\ min_loss = flit 1 6 /\ step = flit 1 3) \/ P = gn_with_params max min_loss step ->
  gn_run pinv s P h = (h', Val (SOk n)) ->
  exists l, nls_steps pinv s gn_normal (flit 1 6) step h n l h' /\ (N.of_nat n = max \/ fgt l min_loss = false).
Proof.
  intros HP E. apply C23_gn_lemma in E as (l & H1 & H2). exists l.
  destruct HP as [(-> & -> & -> & ->)| ->]; (split; [exact H1|]); (destruct H2 as [->|H2]; [left; apply N2Nat.id | right; exact H2]).
Qed.
Lemma C55_lm_lemma pinv s P (h h' : heap F) n max min_loss step beta :
  (P = lm_default /\ max = 1000%N /\ min_loss = flit 1 10 /\ step = flit 1 1 /\ beta = flit 1 5) \/
    P = lm_with_params max min_loss step beta ->
  lm_run pinv s P h = (h', Val (SOk n)) ->
  exists l, nls_steps pinv s (lm_normal beta) (flit 1 6) step h n l h' /\ (N.of_nat n = max \/ fgt l min_loss = false).
Proof.
  intros HP E. apply C23_lm_lemma in E as (l & H1 & H2). exists l.
  destruct HP as [(-> & -> & -> & -> & ->)| ->]; (split; [exact H1|]); (destruct H2 as [->|H2]; [left; apply N2Nat.id | right; exact H2]).
Qed.

Lemma C56_eqv_lemma (h : heap F) r r' r'' :
  (forall a b : F, feq a b = true -> feq b a = true) ->
  (forall a b c : F, feq a b = true -> feq b c = true -> feq a c = true) ->
  ring_eq h r r' = ring_eq h r' r /\ (ring_eq h r r' = true -> ring_eq h r' r'' = true -> ring_eq h r r'' = true).
Proof.
  intros S T. split; [|apply ring_eq_trans; exact T].
  destruct (ring_eq h r r') eqn:E1, (ring_eq h r' r) eqn:E2; auto.
  - apply (ring_eq_sym _ _ _ S) in E1. congruence.
  - apply (ring_eq_sym _ _ _ S) in E2. congruence.
Qed.

Lemma C60_lemma (h : heap F) s : valid h s -> let reg := registered s in
  (forall l1 l2, reg (PLine l1) -> reg (PLine l2) ->
     adds_constraint h s (PerpendicularLines l1 l2) (constrain_perpendicular_lines h s l1 l2) /\
     adds_constraint h s (ParallelLines l1 l2) (constrain_parallel_lines h s l1 l2)) /\
  (forall p1 p2 d, reg (PPoint p1) -> reg (PPoint p2) -> ffin d = true ->
     adds_constraint h s (EuclideanDistance p1 p2 d) (constrain_distance_euclidean h s p1 p2 d)) /\
  (forall p x y, reg (PPoint p) -> ffin x = true -> ffin y = true ->
     adds_constraint h s (FixPoint p x y) (constrain_fix_point h s p x y)) /\
  (forall p1 p2 pm a, reg (PPoint p1) -> reg (PPoint p2) -> reg (PPoint pm) -> ffin a = true ->
     adds_constraint h s (AngleBetweenPoints p1 p2 pm a) (constrain_angle_between_points h s p1 p2 pm a)).
Proof.
  intros V reg. repeat split; intros; apply constrain_adds; auto; simpl;
  try (intros r Hr; repeat (destruct Hr as [<-|Hr]; [assumption|]); destruct Hr).
  now rewrite H0, H1.
Qed.
Lemma C60_refused_lemma (h : heap F) s c : valid h s ->
  (forall r, con_new_ok c = true -> In r (con_refs c) -> ~ registered s r -> refuses s (constrain h s c)) /\
  (con_new_ok c = false -> constrain h s c = (h, s, Panic)).
Proof.
  intros V. split; [intros r H1 H2 H3; exact (constrain_refuses h s c r H1 H2 H3 V)|].
  intros H. unfold constrain. now rewrite H.
Qed.
End L.

Lemma feq64_iff a b : SFeqb a b = true <-> (exists s s', a = S754_zero s /\ b = S754_zero s') \/ (a = b /\ a <> S754_nan).
Proof.
  unfold SFeqb, SFcompare. destruct a as [s1|s1| |s1 ma ea], b as [s2|s2| |s2 mb eb];
  try (destruct s1); try (destruct s2);
  try (split; [intros; try discriminate; first [left; eexists; eexists; split; reflexivity | right; split; [reflexivity | discriminate]]
              | intros [(s & s' & H1 & H2)|[H1 H2]]; congruence]);
  try (split; [intros; discriminate | intros [(s & s' & H1 & H2)|[H1 H2]]; congruence]).
  all: destruct (Z.compare_spec ea eb) as [->|H|H];
    [| split; [discriminate | intros [(? & ? & H1 & H2)|[H1 H2]]; [congruence|]; injection H1 as -> ->; lia]
     | split; [discriminate | intros [(? & ? & H1 & H2)|[H1 H2]]; [congruence|]; injection H1 as -> ->; lia]].
  all: change (Pos.compare_cont Eq ma mb) with (Pos.compare ma mb); destruct (Pos.compare_spec ma mb) as [->|H|H]; simpl;
    [ split; [intros _; right; split; [reflexivity|discriminate] | reflexivity]
    | split; [discriminate | intros [(? & ? & H1 & H2)|[H1 H2]]; [congruence|]; injection H1 as ->; lia]
    | split; [discriminate | intros [(? & ? & H1 & H2)|[H1 H2]]; [congruence|]; injection H1 as ->; lia]].
Qed.
Lemma feq64_sym a b : SFeqb a b = true -> SFeqb b a = true.
Proof. rewrite !feq64_iff. intros [(s & s' & -> & ->)|[-> H]]; [left; eauto | right; auto]. Qed.
Lemma feq64_trans a b c : SFeqb a b = true -> SFeqb b c = true -> SFeqb a c = true.
Proof.
  rewrite !feq64_iff. intros [(s & s' & -> & ->)|[-> H]] [(t & t' & H1 & ->)|[H1 H2]].
  - left; eauto.
  - subst c. left; eauto.
  - subst b. left; eauto.
  - subst c. right; auto.
Qed.

Section W.
Variable L : libm.
#[local] Instance AW : Arith spec_float := ArithF L.
Definition two_heap : heap spec_float := mkHeap [Point2_new one one] [] [] [] [FixPoint 0 zero zero; FixPoint 0 zero one].
Definition two_sketch cs : sketch := mkSketch [(0%N, PPoint 0)] 1%N cs.
Lemma two_valid cs : NoDup cs -> (forall k, In k cs -> k < 2) -> valid two_heap (two_sketch cs).
Proof.
  intros H1 H2. split; simpl; auto.
  - repeat constructor.
  - repeat constructor. intros [].
  - split; [|split; [|split]]; simpl; try (intros; lia).
    intros [|[|k]] Hk; try lia; repeat constructor.
  - intros c [id E]. unfold get_primitive_by_id in E. simpl in E. destruct (N.eqb id 0); [|discriminate]. injection E as <-. simpl. lia.
Qed.
Lemma C57_sum_witness : exists (h : heap spec_float) s1 s2,
  valid h s1 /\ valid h s2 /\ finite_data h s1 /\ s_prims s1 = s_prims s2 /\ s_cons s1 = [0] /\ s_cons s2 = [0; 1] /\
  snd (check_gradients s1 (lit64 1 3) 0 (lit64 1 2) h) = Val tt /\ snd (check_gradients s2 (lit64 1 3) 0 (lit64 1 2) h) = Panic.
Proof.
  exists two_heap, (two_sketch [0]), (two_sketch [0; 1]).
  assert (V : valid two_heap (two_sketch [0])).
  { apply two_valid; [repeat constructor; intros [] | intros k [<-|[]]; lia]. }
  split; [exact V|]. split.
  { apply two_valid; [repeat constructor; simpl; intuition discriminate | intros k [<-|[<-|[]]]; lia]. }
  split; [apply (finite_iff _ _ (valid_keys _ _ V)); vm_compute; reflexivity|].
  vm_compute. repeat split.
Qed.
End W.
