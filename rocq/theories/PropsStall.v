(** * C82 and C83: the truncation of Gauss-Newton, and its exact course on independent linear constraints *)
From Coq Require Import List ZArith NArith Arith Bool Lia Sorted Reals Lra.
From Verif Require Import Arith Vec Prim Cons Sketch Solve Api Spec SolverSpec ArithR ExactSpec MotionSpec LinearSpec SlowSpec StallSpec
  HeapLemmas SolveLemmas WfLemmas DataLemmas SpecLemmas ExactLemmas RMat NlsMat MotionExamples PropsSolver PropsMotion SlowForms
  StallLemmas TrackLemmas StallExamples.
Import ListNotations.
Local Open Scope R_scope.

(** ** C82: Gauss-Newton does not move a sketch whose Jacobian is small *)
(** If all singular values of the Jacobian are at most the root of the tolerance of the pseudo-inverse, Gauss-Newton
    leaves all data as they are; it returns Ok unless the pseudo-inverse fails, and when the loss is above its threshold
    it does so after all its iterations. *)
Theorem C82_stall : forall s (h : heap xR) pinv P eps st h1 J, valid h s -> finite_data h s -> all_con_finite h s ->
  (forall k, In k (s_cons s) -> nondegenerate (cfg_of h) h (getK h k)) -> cutting_pinv pinv ->
  gn_eps P = Fin eps -> 0 <= eps -> gn_step P = Fin st ->
  get_jacobian s h = (h1, Val (map (map Fin) J)) -> small_jacobian (get_n_dofs h s) eps J ->
  forall h' r, gn_run pinv s P h = (h', r) -> (forall c, prim_data h' c = prim_data h c) /\
    ((exists Q, pinv (map (map Fin) (normal_matrix (get_n_dofs h s) J)) (Fin eps) = PInv Q) -> exists i, r = Val (SOk i)) /\
    (forall i, r = Val (SOk i) -> fgt (get_loss h s) (gn_min_loss P) = true -> i = N.to_nat (gn_max P)).
Proof. exact C82_stall_lemma. Qed.
(** In a linear sketch in which at most D constraints act on any point, that is so as soon as every constraint has a loss
    of at most eps / (4 D), however many constraints there are and however large the total loss is. *)
Theorem C82_linear : forall s (h : heap xR) pinv P eps st D, valid h s -> finite_data h s -> all_con_finite h s -> linear_sketch h s -> cutting_pinv pinv ->
  gn_eps P = Fin eps -> 0 <= eps -> gn_step P = Fin st ->
  (forall p, In p (points s) -> (valence h s p <= D)%nat) ->
  (forall k, In k (s_cons s) -> exists l, loss_value h (getK h k) = Fin l /\ 4 * INR D * l <= eps) ->
  forall h' r, gn_run pinv s P h = (h', r) -> (forall c, prim_data h' c = prim_data h c) /\
    (forall h1 J, get_jacobian s h = (h1, Val (map (map Fin) J)) -> (exists Q, pinv (map (map Fin) (normal_matrix (get_n_dofs h s) J)) (Fin eps) = PInv Q) -> exists i, r = Val (SOk i)) /\
    (forall i, r = Val (SOk i) -> fgt (get_loss h s) (gn_min_loss P) = true -> i = N.to_nat (gn_max P)).
Proof. exact C82_linear_lemma. Qed.

(** Five pairs of coincident points that should be 0.0007 apart.  The loss is 1.225e-6, above the default threshold. *)
Definition d82 : R := 7 / 10000.
Definition st_ops : list (op xR) := repeat (AddPoint2 (q 0) (q 0)) 10 ++
  map (fun i : nat => Constrain (HorizontalDistance (2 * i)%nat (2 * i + 1)%nat (Fin d82))) (seq 0 5).
Definition stl_heap : heap xR := mkHeap (repeat (Point2_new (q 0) (q 0)) 10) [] [] [] (map (fun i => HorizontalDistance (2 * i)%nat (2 * i + 1)%nat (Fin d82)) (seq 0 5)).
Definition stl_sketch : sketch := mkSketch (map (fun i => (N.of_nat i, PPoint i)) (seq 0 10)) 10%N (seq 0 5).
Example stl_run : run xpinv init st_ops (map RetLoc (seq 0 10) ++ map RetLoc (seq 0 5)) (stl_heap, stl_sketch).
Proof. unfold st_ops. cbn -[d82]. repeat (first [apply run_nil | eapply run_cons; [okS | cbv -[IZR d82]; reflexivity |]]). Qed.
Example stl_valid : valid stl_heap stl_sketch.
Proof. exact (reachable_valid xpinv _ _ _ stl_run eq_refl). Qed.
Example stl_finite_data : finite_data stl_heap stl_sketch.
Proof. apply (finite_iff _ _ (valid_keys _ _ stl_valid)). reflexivity. Qed.
Example stl_finite : all_con_finite stl_heap stl_sketch.
Proof. con_finS. Qed.
Example stl_linear : linear_sketch stl_heap stl_sketch.
Proof. intros k H. simpl in H. repeat (destruct H as [<-|H]; [reflexivity|]). destruct H. Qed.
Example stl_small : forall k, In k (s_cons stl_sketch) -> exists l, loss_value stl_heap (getK stl_heap k) = Fin l /\ 4 * INR 1 * l <= / 1000000.
Proof.
  intros k H. simpl in H. exists (sq d82 / 2). assert (B : 4 * INR 1 * (sq d82 / 2) <= / 1000000) by (unfold sq, d82; simpl; lra).
  split; [|exact B]. repeat (destruct H as [<-|H]; [cbv -[IZR Rplus Rmult Ropp Rminus Rinv Rdiv]; f_equal; lra|]). destruct H.
Qed.
Example stl_loss : get_loss stl_heap stl_sketch = Fin (49 / 40000000).
Proof. cbv -[IZR Rplus Rmult Ropp Rminus Rinv Rdiv]. f_equal. lra. Qed.
Lemma default_gn : gn_eps (gn_default (F := xR)) = Fin (/ 1000000) /\ gn_step (gn_default (F := xR)) = Fin (/ 1000).
Proof. split; cbn; f_equal; lra. Qed.
Example C82_example : cutting_pinv cut_pinv /\ valid stl_heap stl_sketch /\ finite_data stl_heap stl_sketch /\ all_con_finite stl_heap stl_sketch /\
  linear_sketch stl_heap stl_sketch /\ (forall p, In p (points stl_sketch) -> (valence stl_heap stl_sketch p <= 1)%nat) /\
  (forall k, In k (s_cons stl_sketch) -> exists l, loss_value stl_heap (getK stl_heap k) = Fin l /\ 4 * INR 1 * l <= / 1000000) /\
  fgt (get_loss stl_heap stl_sketch) (gn_min_loss gn_default) = true /\
  exists h', gn_run cut_pinv stl_sketch gn_default stl_heap = (h', Val (SOk (N.to_nat 10000))) /\ forall c, prim_data h' c = prim_data stl_heap c.
Proof.
  split; [exact cut_pinv_cutting|]. split; [exact stl_valid|]. split; [exact stl_finite_data|]. split; [exact stl_finite|]. split; [exact stl_linear|].
  assert (HV : forall p, In p (points stl_sketch) -> (valence stl_heap stl_sketch p <= 1)%nat).
  { intros p H. simpl in H. repeat (destruct H as [<-|H]; [apply Nat.leb_le; vm_compute; reflexivity|]). destruct H. }
  split; [exact HV|]. split; [exact stl_small|].
  assert (HL : fgt (get_loss stl_heap stl_sketch) (gn_min_loss gn_default) = true) by (rewrite stl_loss; apply ExactRun.lt_true; lra).
  split; [exact HL|]. destruct default_gn as [E1 E2].
  destruct (gn_run cut_pinv stl_sketch gn_default stl_heap) as [h' r] eqn:R. exists h'.
  destruct (C82_linear stl_sketch stl_heap cut_pinv gn_default _ _ 1 stl_valid stl_finite_data stl_finite stl_linear cut_pinv_cutting E1 ltac:(lra) E2 HV stl_small h' r R) as (A & B & C).
  split; [|exact A].
  destruct (NlsDescent.jac_here stl_sketch stl_heap stl_valid stl_finite (SlowLemmas.here_nd _ _ stl_linear)) as (h1 & J & EJ & _ & RJ & _).
  destruct (B h1 J EJ) as [i ->].
  - rewrite normal_mm. apply cut_small_form. intros w Lw. assert (L : length w = get_n_dofs stl_heap stl_sketch) by (rewrite Lw; unfold mmL; now rewrite map_length, trL_length).
    pose proof (lin_small _ _ stl_valid stl_finite stl_linear 1 _ h1 J HV stl_small ltac:(lra) EJ w L) as S. change mulR with mulL in *.
    rewrite jtj_mul, adjoint by (auto; apply mulL_length). exact S.
  - now rewrite (C i eq_refl HL).
Qed.

(** ** C83: the exact course of Gauss-Newton on independent linear constraints *)
(** Constraints with one linear equation each, whose gradients are independent: the smallest eigenvalue of their Gram
    matrix is at least lam.  As long as the tolerance stays below that eigenvalue, which shrinks like the loss, every
    iteration multiplies every deviation by 1 - step/2.  This also determines the number of iterations. *)
Theorem C83_trajectory : forall s (h : heap xR) pinv P eps st lam h1 J l, valid h s -> finite_data h s -> all_con_finite h s ->
  (forall k, In k (s_cons s) -> one_equation (getK h k) = true) -> cutting_pinv pinv ->
  gn_eps P = Fin eps -> 0 <= eps -> gn_step P = Fin st -> st <> 2 ->
  get_jacobian s h = (h1, Val (map (map Fin) J)) -> 0 < lam -> gram_at_least (get_n_dofs h s) J lam -> get_loss h s = Fin l ->
  let rho := 1 - st / 2 in
  (forall j, (j < N.to_nat (gn_max P))%nat -> fgt (checked_loss rho l j) (gn_min_loss P) = true -> eps < rho ^ (2 * j) * lam) ->
  forall h' r, gn_run pinv s P h = (h', r) ->
  (accepts pinv eps (normal_matrix (get_n_dofs h s) J) -> exists i, r = Val (SOk i)) /\
  forall i, r = Val (SOk i) ->
    (forall k, In k (s_cons s) -> deviation (cfg_of h') h' (getK h' k) = rho ^ i * deviation (cfg_of h) h (getK h k)) /\
    get_loss h' s = Fin (rho ^ (2 * i) * l) /\ (i <= N.to_nat (gn_max P))%nat /\
    (forall j, (j < i)%nat -> fgt (checked_loss rho l j) (gn_min_loss P) = true) /\
    (i = N.to_nat (gn_max P) \/ fgt (checked_loss rho l i) (gn_min_loss P) = false).
Proof. exact C83_trajectory_lemma. Qed.
(** So it reaches its threshold with every step size between 0 and 2 if the budget and the tolerance allow. *)
Theorem C83_solves : forall s (h : heap xR) pinv P eps st lam h1 J l lo, valid h s -> finite_data h s -> all_con_finite h s ->
  (forall k, In k (s_cons s) -> one_equation (getK h k) = true) -> cutting_pinv pinv ->
  gn_eps P = Fin eps -> 0 <= eps -> gn_step P = Fin st -> 0 < st < 2 -> gn_min_loss P = Fin lo -> 0 < lo ->
  get_jacobian s h = (h1, Val (map (map Fin) J)) -> gram_at_least (get_n_dofs h s) J lam -> get_loss h s = Fin l ->
  accepts pinv eps (normal_matrix (get_n_dofs h s) J) ->
  let rho := 1 - st / 2 in
  eps < lam -> eps * l < rho ^ 2 * lo * lam -> (0 < gn_max P)%N -> rho ^ (2 * (N.to_nat (gn_max P) - 1)) * l <= lo ->
  exists h' i l', gn_run pinv s P h = (h', Val (SOk i)) /\ get_loss h' s = Fin l' /\ l' <= rho ^ 2 * lo.
Proof. exact C83_solves_lemma. Qed.
(** With its default parameters Gauss-Newton solves such sketches when the loss is at most 0.02 (C79_unsolved: it does not
    when the loss of a sketch with one constraint is above 0.03). *)
Theorem C83_default : forall s (h : heap xR) pinv lam h1 J l, valid h s -> finite_data h s -> all_con_finite h s ->
  (forall k, In k (s_cons s) -> one_equation (getK h k) = true) -> cutting_pinv pinv ->
  get_jacobian s h = (h1, Val (map (map Fin) J)) -> gram_at_least (get_n_dofs h s) J lam -> get_loss h s = Fin l ->
  accepts pinv (/ 1000000) (normal_matrix (get_n_dofs h s) J) ->
  / 1000000 < lam -> 101 / 100 * l <= lam -> l <= / 50 ->
  exists h' i l', gn_run pinv s gn_default h = (h', Val (SOk i)) /\ get_loss h' s = Fin l' /\ l' <= / 1000000.
Proof. exact C83_default_lemma. Qed.

(** Two coincident points that should be 0.1 apart. *)
Definition tr_heap : heap xR := mkHeap [Point2_new (q 0) (q 0); Point2_new (q 0) (q 0)] [] [] [] [HorizontalDistance 0%nat 1%nat (Fin (/ 10))].
Definition tr_sketch : sketch := mkSketch [(0%N, PPoint 0%nat); (1%N, PPoint 1%nat)] 2%N [0%nat].
Example tr_run : run xpinv init [AddPoint2 (q 0) (q 0); AddPoint2 (q 0) (q 0); Constrain (HorizontalDistance 0%nat 1%nat (Fin (/ 10)))]
  [RetLoc 0%nat; RetLoc 1%nat; RetLoc 0%nat] (tr_heap, tr_sketch).
Proof. repeat (first [apply run_nil | eapply run_cons; [okS | cbv -[IZR Rinv]; reflexivity |]]). Qed.
Example tr_valid : valid tr_heap tr_sketch.
Proof. exact (reachable_valid xpinv _ _ _ tr_run eq_refl). Qed.
Example tr_finite_data : finite_data tr_heap tr_sketch.
Proof. apply (finite_iff _ _ (valid_keys _ _ tr_valid)). reflexivity. Qed.
Example tr_finite : all_con_finite tr_heap tr_sketch.
Proof. con_finS. Qed.
Definition tr_J : list (list R) := [[/ 10; 0; - / 10; 0]].
Lemma tr_jacobian : exists h1, get_jacobian tr_sketch tr_heap = (h1, Val (map (map Fin) tr_J)).
Proof.
  eexists. cbv -[IZR Rplus Rmult Ropp Rminus Rinv Rdiv]. refine (f_equal2 pair eq_refl _). f_equal. eqs.
Qed.
Lemma tr_loss : get_loss tr_heap tr_sketch = Fin (/ 200).
Proof. cbv -[IZR Rplus Rmult Ropp Rminus Rinv Rdiv]. f_equal. lra. Qed.
Lemma tr_gram : gram_at_least 4 tr_J (/ 50).
Proof. intros [|a [|]] L; try discriminate. unfold combine_rows, tr_J, dotL. simpl. lra. Qed.
Lemma tr_accepts eps : accepts cut_pinv eps (normal_matrix 4 tr_J).
Proof.
  intros c Pc. set (a := map (map (Rmult c)) (normal_matrix 4 tr_J)).
  replace (map (map (fun x => Fin (c * x))) (normal_matrix 4 tr_J)) with (map (map Fin) a) by (unfold a; rewrite map_map; apply map_ext; intros r; now rewrite map_map).
  assert (Ea : a = [[c / 100; 0; - c / 100; 0]; [0; 0; 0; 0]; [- c / 100; 0; c / 100; 0]; [0; 0; 0; 0]]).
  { unfold a, normal_matrix, tr_J, dotL. simpl. eqs. }
  rewrite Ea. apply (cut_proj 4 eps _ (c / 50)).
  - split; [reflexivity|]. split; [repeat constructor|]. intros x v Lx Lv.
    destruct x as [|x1 [|x2 [|x3 [|x4 [|]]]]]; try discriminate. destruct v as [|v1 [|v2 [|v3 [|v4 [|]]]]]; try discriminate.
    unfold mulR, dotL. simpl. lra.
  - intros v Lv. destruct v as [|v1 [|v2 [|v3 [|v4 [|]]]]]; try discriminate. unfold mulR, dotL. simpl.
    pose proof (Rle_0_sqr (v1 - v3)) as Q. unfold Rsqr in Q. assert (0 <= c * ((v1 - v3) * (v1 - v3))) by (apply Rmult_le_pos; lra). lra.
  - lra.
  - unfold mmL, trL, dotL. simpl. eqs.
  - unfold trace, dotL. simpl. field. lra.
Qed.
Example C83_example : valid tr_heap tr_sketch /\ finite_data tr_heap tr_sketch /\ all_con_finite tr_heap tr_sketch /\
  (forall k, In k (s_cons tr_sketch) -> one_equation (getK tr_heap k) = true) /\ cutting_pinv cut_pinv /\
  (exists h1, get_jacobian tr_sketch tr_heap = (h1, Val (map (map Fin) tr_J))) /\ gram_at_least (get_n_dofs tr_heap tr_sketch) tr_J (/ 50) /\
  get_loss tr_heap tr_sketch = Fin (/ 200) /\ accepts cut_pinv (/ 1000000) (normal_matrix (get_n_dofs tr_heap tr_sketch) tr_J) /\
  exists h' i l', gn_run cut_pinv tr_sketch gn_default tr_heap = (h', Val (SOk i)) /\ get_loss h' tr_sketch = Fin l' /\ l' <= / 1000000.
Proof.
  split; [exact tr_valid|]. split; [exact tr_finite_data|]. split; [exact tr_finite|].
  assert (OE : forall k, In k (s_cons tr_sketch) -> one_equation (getK tr_heap k) = true) by (intros k [<-|[]]; reflexivity).
  split; [exact OE|]. split; [exact cut_pinv_cutting|]. split; [exact tr_jacobian|]. split; [exact tr_gram|]. split; [exact tr_loss|]. split; [apply tr_accepts|].
  destruct tr_jacobian as [h1 EJ].
  exact (C83_default _ _ _ _ _ _ _ tr_valid tr_finite_data tr_finite OE cut_pinv_cutting EJ tr_gram tr_loss (tr_accepts _) ltac:(lra) ltac:(lra) ltac:(lra)).
Qed.

Print Assumptions C82_stall.
Print Assumptions C82_linear.
Print Assumptions C83_trajectory.
Print Assumptions C83_solves.
Print Assumptions C83_default.
