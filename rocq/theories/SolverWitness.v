(** * Binary64 runs used as counterexamples and examples for the solver properties *)
From Coq Require Import List ZArith NArith Arith Bool Lia Floats.SpecFloat.
From Verif Require Import Arith Vec Prim Cons Sketch Solve Api Spec SolverSpec ArithF
  HeapLemmas SolveLemmas BookLemmas WfLemmas DataLemmas SpecLemmas SearchLemmas StepLemmas.
Import ListNotations.

Definition nopinv : mat spec_float -> spec_float -> pinv_res (mat spec_float) := fun _ _ => PErr.
Ltac okF := simpl; repeat split; repeat constructor; simpl; try lia.
Ltac goF := repeat (first [apply run_nil | eapply run_cons; [okF | reflexivity |]]).

(** two lines, the first from (0,1) to (x1,1), the second from (0,0) to (x,y), to be made parallel *)
Definition par_heap (x1 x y : spec_float) : heap spec_float :=
  let z := S754_zero false in let o := lit64 1 0 in
  mkHeap [mkPoint z o z z; mkPoint x1 o z z; mkPoint z z z z; mkPoint x y z z] [mkLine 0 1; mkLine 2 3] [] [] [ParallelLines 0 1].
Definition par_sketch : sketch :=
  mkSketch [(0%N, PPoint 0); (1%N, PPoint 1); (2%N, PPoint 2); (3%N, PPoint 3); (4%N, PLine 0); (5%N, PLine 1)] 6%N [0].
(** one point at (x, y) fixed to (u, v) *)
Definition fix_heap (x y u v : spec_float) : heap spec_float :=
  let z := S754_zero false in mkHeap [mkPoint x y z z] [] [] [] [FixPoint 0 u v].
Definition fix_sketch : sketch := mkSketch [(0%N, PPoint 0)] 1%N [0].

Section W.
Variable L : libm.
Let A := ArithF L.
#[local] Existing Instance A.

Lemma par_run x1 x y : fin64 x1 = true -> fin64 x = true -> fin64 y = true ->
  exists rs, run nopinv init [AddPoint2 (lit64 0 0) (lit64 1 0); AddPoint2 x1 (lit64 1 0); AddPoint2 (lit64 0 0) (lit64 0 0);
       AddPoint2 x y; AddLine 0 1; AddLine 2 3; Constrain (ParallelLines 0 1)] rs (par_heap x1 x y, par_sketch).
Proof. intros. exists [RetLoc 0; RetLoc 1; RetLoc 2; RetLoc 3; RetLoc 0; RetLoc 1; RetLoc 0]. goF. Qed.
Lemma par_valid x1 x y : fin64 x1 = true -> fin64 x = true -> fin64 y = true -> valid (par_heap x1 x y) par_sketch.
Proof. intros H1 H2 H3. destruct (par_run x1 x y H1 H2 H3) as [rs R]. exact (reachable_valid nopinv _ _ _ R eq_refl). Qed.
Lemma fix_run x y u v : fin64 x = true -> fin64 y = true -> fin64 u = true -> fin64 v = true ->
  exists rs, run nopinv init [AddPoint2 x y; Constrain (FixPoint 0 u v)] rs (fix_heap x y u v, fix_sketch).
Proof.
  intros H1 H2 H3 H4. exists [RetLoc 0; RetLoc 0]. eapply run_cons; [okF | reflexivity |].
  eapply run_cons; [okF | | apply run_nil]. simpl. unfold constrain, mbind. simpl. rewrite H3, H4. reflexivity.
Qed.
Lemma fix_valid x y u v : fin64 x = true -> fin64 y = true -> fin64 u = true -> fin64 v = true -> valid (fix_heap x y u v) fix_sketch.
Proof. intros H1 H2 H3 H4. destruct (fix_run x y u v H1 H2 H3 H4) as [rs R]. exact (reachable_valid nopinv _ _ _ R eq_refl). Qed.

(** ** C26 *)
Definition h26 : heap spec_float := par_heap (lit64 1 0) (lit64 4 4) (lit64 3 4).
Lemma no_first_step s (h : heap spec_float) h1 g h2 e : get_gradient s h = (h1, Val g) ->
  line_search_wolfe s (vneg g) g h1 = (h2, Val (LErr e)) -> forall n hn, gd_steps s h n hn -> n = 0%nat /\ hn = h.
Proof.
  intros Hg Hl n hn. induction 1 as [|n h3 h4 g' al h5 h6 _ [-> ->] Hg' Hl' _]; auto.
  rewrite Hg in Hg'. injection Hg' as <- <-. congruence.
Qed.
Lemma C26_gd_witness (pinv : mat spec_float -> spec_float -> pinv_res (mat spec_float)) : exists h s h',
  valid h s /\ finite_data h s /\
  solve pinv (GradientBased gd_default) s h = (h', Val (SErr (LineSearch SearchFailed))) /\
  SFltb (get_loss h s) (get_loss h' s) = true /\
  forall n hn, gd_steps s h n hn -> get_data h' s <> get_data hn s.
Proof.
  exists h26, par_sketch, (fst (gd_run par_sketch gd_default h26)).
  assert (V : valid h26 par_sketch) by (apply par_valid; reflexivity).
  split; [exact V|]. split; [apply (finite_iff _ _ (valid_keys _ _ V)); vm_compute; reflexivity|].
  split; [|split].
  - unfold solve, mbind. assert (E : snd (gd_run par_sketch gd_default h26) = Val (SErr (LineSearch SearchFailed))) by (vm_compute; reflexivity).
    destruct (gd_run par_sketch gd_default h26) as [h' r]. simpl in E. subst r. reflexivity.
  - vm_compute. reflexivity.
  - intros n hn Hs.
    set (h1 := fst (get_gradient par_sketch h26)).
    set (g := match snd (get_gradient par_sketch h26) with Val g => g | Panic => [] end).
    assert (Eg : get_gradient par_sketch h26 = (h1, Val g)) by (vm_compute; reflexivity).
    assert (El : line_search_wolfe par_sketch (vneg g) g h1 = (fst (line_search_wolfe par_sketch (vneg g) g h1), Val (LErr SearchFailed))) by (vm_compute; reflexivity).
    destruct (no_first_step _ _ _ _ _ _ Eg El n hn Hs) as [_ ->]. intros E.
    apply (f_equal (fun v => SFeqb (nth 4 v S754_nan) (nth 4 (get_data h26 par_sketch) S754_nan))) in E. vm_compute in E. discriminate.
Qed.
Lemma no_first_bfgs s (h : heap spec_float) h1 g h2 h3 g' h4 :
  get_gradient s h = (h1, Val g) ->
  line_search_wolfe s (mvec (mneg (mident (get_n_dofs h s))) g) g h1 = (h2, Val (LErr SearchFailed)) ->
  get_gradient s h2 = (h3, Val g') ->
  line_search_wolfe s (mvec (mneg (mident (get_n_dofs h s))) g') g' h3 = (h4, Val (LErr SearchFailed)) ->
  forall n k b hn d H, bfgs_steps s h n k b hn d H -> n = 0%nat /\ d = get_data h s /\
    H = mident (get_n_dofs h s) /\ ((b = false /\ hn = h) \/ (b = true /\ hn = h2)).
Proof.
  intros Hg Hl Hg2 Hl2 n k b hn d H St.
  induction St as [|n k b h5 d H h6 g6 al h7 h8 h9 g9 St IH Eg El Es Eg' | n k h5 d H h6 g6 h7 St IH Eg El].
  - intuition.
  - exfalso. destruct IH as (_ & _ & E & [[_ Eh]|[_ Eh]]); subst h5; rewrite E in El.
    + rewrite Hg in Eg. injection Eg as <- <-. congruence.
    + rewrite Hg2 in Eg. injection Eg as <- <-. congruence.
  - destruct IH as (-> & -> & E & [[_ Eh]|[Hb _]]); [|discriminate]. subst h5. rewrite E in El.
    rewrite Hg in Eg. injection Eg as <- <-. rewrite Hl in El. injection El as <-.
    rewrite get_data_length. intuition.
Qed.
Definition val_or {T} (d : T) (o : out T) : T := match o with Val x => x | Panic => d end.
(** a point so far from its target (2^700) that the loss overflows *)
Definition h26b : heap spec_float := fix_heap (S754_finite false 4503599627370496 648) (S754_zero false) (S754_zero false) (S754_zero false).
Lemma C26_bfgs_witness (pinv : mat spec_float -> spec_float -> pinv_res (mat spec_float)) : exists h s h',
  valid h s /\ finite_data h s /\
  solve pinv (BFGS bfgs_default) s h = (h', Val (SErr FailedTwice)) /\
  forall n k b hn d H, bfgs_steps s h n k b hn d H -> get_data h' s <> d.
Proof.
  exists h26b, fix_sketch, (fst (bfgs_run fix_sketch bfgs_default h26b)).
  assert (V : valid h26b fix_sketch) by (apply fix_valid; reflexivity).
  split; [exact V|]. split; [apply (finite_iff _ _ (valid_keys _ _ V)); vm_compute; reflexivity|].
  split.
  - unfold solve, mbind. assert (E : snd (bfgs_run fix_sketch bfgs_default h26b) = Val (SErr FailedTwice)) by (vm_compute; reflexivity).
    destruct (bfgs_run fix_sketch bfgs_default h26b) as [h' r]. simpl in E. subst r. reflexivity.
  - intros n k b hn d H Hs.
    set (h1 := fst (get_gradient fix_sketch h26b)). set (g := val_or [] (snd (get_gradient fix_sketch h26b))).
    set (H0 := mneg (mident (get_n_dofs h26b fix_sketch))).
    set (h2 := fst (line_search_wolfe fix_sketch (mvec H0 g) g h1)).
    set (h3 := fst (get_gradient fix_sketch h2)). set (g2 := val_or [] (snd (get_gradient fix_sketch h2))).
    set (h4 := fst (line_search_wolfe fix_sketch (mvec H0 g2) g2 h3)).
    assert (E1 : get_gradient fix_sketch h26b = (h1, Val g)) by (vm_compute; reflexivity).
    assert (E2 : line_search_wolfe fix_sketch (mvec H0 g) g h1 = (h2, Val (LErr SearchFailed))) by (vm_compute; reflexivity).
    assert (E3 : get_gradient fix_sketch h2 = (h3, Val g2)) by (vm_compute; reflexivity).
    assert (E4 : line_search_wolfe fix_sketch (mvec H0 g2) g2 h3 = (h4, Val (LErr SearchFailed))) by (vm_compute; reflexivity).
    destruct (no_first_bfgs _ _ _ _ _ _ _ _ E1 E2 E3 E4 _ _ _ _ _ _ Hs) as (_ & -> & _). intros E.
    apply (f_equal (fun v => SFeqb (nth 0 v S754_nan) (nth 0 (get_data h26b fix_sketch) S754_nan))) in E. vm_compute in E. discriminate.
Qed.

(** ** C27 *)
Definition h27 : heap spec_float := par_heap (lit64 10000000000 0) (lit64 4 13) (lit64 3 13).
Lemma C27_witness (pinv : mat spec_float -> spec_float -> pinv_res (mat spec_float)) : exists h s h',
  valid h s /\ finite_data h s /\ solve pinv (BFGS bfgs_default) s h = (h', Val (SOk tt)) /\
  SFltb (get_loss h s) (get_loss h' s) = true.
Proof.
  exists h27, par_sketch, (fst (bfgs_run par_sketch bfgs_default h27)).
  assert (V : valid h27 par_sketch) by (apply par_valid; reflexivity).
  split; [exact V|]. split; [apply (finite_iff _ _ (valid_keys _ _ V)); vm_compute; reflexivity|]. split.
  - unfold solve, mbind. assert (E : snd (bfgs_run par_sketch bfgs_default h27) = Val (SOk 0%N)) by (vm_compute; reflexivity).
    destruct (bfgs_run par_sketch bfgs_default h27) as [h' r]. simpl in E. subst r. reflexivity.
  - vm_compute. reflexivity.
Qed.

(** ** C33: the target is so far away that the gradient overflows *)
Definition huge (neg : bool) : spec_float := S754_finite neg 9007199254740991 971.
Definition h33 : heap spec_float := fix_heap (huge false) (S754_zero false) (huge true) (S754_zero false).
Lemma C33_witness (pinv : mat spec_float -> spec_float -> pinv_res (mat spec_float)) : exists h s k,
  valid h s /\ finite_data h s /\ In k (s_cons s) /\
  (exists t row x, In (t, row) (grad_rows h (getK h k)) /\ In x row /\ x = S754_infinity false) /\
  snd (solve pinv (BFGS bfgs_default) s h) = Panic.
Proof.
  exists h33, fix_sketch, 0%nat. assert (V : valid h33 fix_sketch) by (apply fix_valid; reflexivity).
  split; [exact V|]. split; [apply (finite_iff _ _ (valid_keys _ _ V)); vm_compute; reflexivity|].
  split; [now left|]. split.
  - exists (GPoint 0), [S754_infinity false; S754_zero false], (S754_infinity false).
    split; [vm_compute; now left | split; [now left|reflexivity]].
  - vm_compute. reflexivity.
Qed.

(** ** C23: the step overshoots; the normal matrix is its own Moore-Penrose inverse (times 1) *)
Definition one : spec_float := lit64 1 0.
Definition zero : spec_float := S754_zero false.
Definition h23 : heap spec_float := fix_heap one zero zero zero.
Definition pinv23 : mat spec_float -> spec_float -> pinv_res (mat spec_float) := fun _ _ => PInv [[one; zero]; [zero; zero]].
Definition pinv23_lm : mat spec_float -> spec_float -> pinv_res (mat spec_float) := fun _ _ => PInv [[lit64 5 1; zero]; [zero; one]].
(** the four Penrose equations for 2x2 matrices *)
Definition penrose2 (a q : mat spec_float) : Prop :=
  mmul 2 (mmul 2 a q) a = a /\ mmul 2 (mmul 2 q a) q = q /\
  mtrans 2 (mmul 2 a q) = mmul 2 a q /\ mtrans 2 (mmul 2 q a) = mmul 2 q a.
Lemma C23_gn_witness : exists pinv P h s h' n J q, let Q := gn_with_params P one (lit64 10 0) in
  valid h s /\ finite_data h s /\ gn_run pinv s Q h = (h', Val (SOk n)) /\ (n < N.to_nat P)%nat /\
  snd (get_jacobian s h) = Val J /\ pinv (gn_normal 2 J) (gn_eps Q) = PInv q /\ penrose2 (gn_normal 2 J) q /\
  SFltb one (get_loss h' s) = true.
Proof.
  exists pinv23, 100%N, h23, fix_sketch, (fst (gn_run pinv23 fix_sketch (gn_with_params 100 one (lit64 10 0)) h23)), 1%nat, [[one; zero]], [[one; zero]; [zero; zero]].
  assert (V : valid h23 fix_sketch) by (apply fix_valid; reflexivity). cbv zeta.
  split; [exact V|]. split; [apply (finite_iff _ _ (valid_keys _ _ V)); vm_compute; reflexivity|].
  split; [vm_compute; reflexivity|]. split; [vm_compute; lia|]. split; [vm_compute; reflexivity|]. split; [reflexivity|].
  split; [vm_compute; auto | vm_compute; reflexivity].
Qed.
Lemma C23_lm_witness : exists pinv P h s h' n J q, let Q := lm_with_params P one (lit64 20 0) one in
  valid h s /\ finite_data h s /\ lm_run pinv s Q h = (h', Val (SOk n)) /\ (n < N.to_nat P)%nat /\
  snd (get_jacobian s h) = Val J /\ pinv (lm_normal one 2 J) (lm_eps Q) = PInv q /\ penrose2 (lm_normal one 2 J) q /\
  SFltb one (get_loss h' s) = true.
Proof.
  exists pinv23_lm, 100%N, h23, fix_sketch, (fst (lm_run pinv23_lm fix_sketch (lm_with_params 100 one (lit64 20 0) one) h23)), 1%nat, [[one; zero]], [[lit64 5 1; zero]; [zero; one]].
  assert (V : valid h23 fix_sketch) by (apply fix_valid; reflexivity). cbv zeta.
  split; [exact V|]. split; [apply (finite_iff _ _ (valid_keys _ _ V)); vm_compute; reflexivity|].
  split; [vm_compute; reflexivity|]. split; [vm_compute; lia|]. split; [vm_compute; reflexivity|]. split; [reflexivity|].
  split; [vm_compute; auto | vm_compute; reflexivity].
Qed.
End W.
