(** * C47, C48: serialisation *)
From Coq Require Import List ZArith NArith Arith Bool Lia Sorted Reals Floats.SpecFloat.
From Verif Require Import Arith Vec Prim Cons Sketch Solve Serde Api Spec SerdeSpec SolverSpec ArithR ArithF ExactSpec
  SpecLemmas DataLemmas SerdeLemmas SerdeForms SolverWitness PropsSolver.
Import ListNotations.

(** ** C47: the round trip preserves the values

    [deserialize t h0] reads the tree [t] in a program whose memory is [h0]. *)
Theorem C47_structure : forall {F} {A : Arith F} (h h0 h' : heap F) s s', valid h s ->
  deserialize (serialize h s) h0 = (h', s') ->
  extends h0 h' /\ (heap_ok h0 -> valid h' s') /\ s_next s' = s_next s /\
  (forall id, match get_primitive_by_id s id, get_primitive_by_id s' id with
              | Some c, Some c' => looks_like h c h' c'
              | None, None => True
              | _, _ => False
              end) /\
  Forall2 (fun k k' => con_looks_like h (getK h k) h' (getK h' k')) (s_cons s) (s_cons s').
Proof. exact @SerdeForms.C47_structure. Qed.
Theorem C47_values : forall {F} {A : Arith F} (h h0 h' : heap F) s s', valid h s ->
  deserialize (serialize h s) h0 = (h', s') ->
  get_data h' s' = get_data h s /\ get_n_dofs h' s' = get_n_dofs h s /\
  get_num_primitives s' = get_num_primitives s /\ get_num_constraints s' = get_num_constraints s /\
  get_loss_per_constraint h' s' = get_loss_per_constraint h s /\ get_loss h' s' = get_loss h s.
Proof. exact @SerdeForms.C47_values. Qed.
(** and serialising again gives the same tree *)
Theorem C47_stable : forall {F} {A : Arith F} (h h0 h' : heap F) s s', valid h s ->
  deserialize (serialize h s) h0 = (h', s') -> serialize h' s' = serialize h s.
Proof. exact @ser_eq. Qed.

(** a line and an arc sharing a point, a circle and four constraints, one primitive deleted *)
Definition n1 : spec_float := Eval vm_compute in lit64 1 0.
Definition n2 : spec_float := Eval vm_compute in lit64 2 0.
Definition n3 : spec_float := Eval vm_compute in lit64 3 0.
Definition sd_ops : list (op spec_float) :=
  [AddPoint2 zero zero; AddPoint2 n3 n2; AddLine 0 1; AddPoint2 n1 n1;
   AddArc 1 n2 true zero n1; NewCircle 0 n3; AddPrimitive (PCircle 0);
   Constrain (FixPoint 0 n1 zero); Constrain (HorizontalLine 0); Constrain (EuclideanDistance 0 1 n2);
   Constrain (ArcStartPointCoincident 0 0); DeletePrimitive 3%N].
Definition sd_heap (L : libm) : heap spec_float := let A := ArithF L in
  mkHeap [Point2_new zero zero; Point2_new n3 n2; Point2_new n1 n1] [mkLine 0 1]
    [Arc_new 1 n2 true zero n1] [Circle_new 0 n3]
    [FixPoint 0 n1 zero; HorizontalLine 0; EuclideanDistance 0 1 n2; ArcStartPointCoincident 0 0].
Definition sd_sketch : sketch := mkSketch
  [(0%N, PPoint 0); (1%N, PPoint 1); (2%N, PLine 0); (4%N, PArc 0); (5%N, PCircle 0)] 6%N [0; 1; 2; 3].
Example sd_run : forall L, let A := ArithF L in run nopinv init sd_ops
  [RetLoc 0; RetLoc 1; RetLoc 0; RetLoc 2; RetLoc 0; RetLoc 0; RetId 5%N; RetLoc 0; RetLoc 1; RetLoc 2; RetLoc 3; RetOk] (sd_heap L, sd_sketch).
Proof.
  intros L A. unfold sd_ops.
  repeat (first [apply run_nil | eapply run_cons; [okF | cbv; reflexivity |]]).
Qed.
Example C47_example : forall L, let A := ArithF L in
  valid (sd_heap L) sd_sketch /\ heap_ok (sd_heap L) /\
  exists h' s', deserialize (serialize (sd_heap L) sd_sketch) (sd_heap L) = (h', s') /\
    map fst (s_prims s') = [0; 1; 2; 4; 5]%N /\ length (h_pts h') = 16 /\ length (get_data h' s') = 8.
Proof.
  intros L A. assert (V : valid (sd_heap L) sd_sketch) by exact (reachable_valid nopinv _ _ _ (sd_run L) eq_refl).
  split; [exact V|]. split; [apply V|]. exists (fst (deserialize (serialize (sd_heap L) sd_sketch) (sd_heap L))), (snd (deserialize (serialize (sd_heap L) sd_sketch) (sd_heap L))).
  split; [apply surjective_pairing|]. cbv. auto.
Qed.

(** ** C48: the round trip does not preserve behaviour *)

(** Two sketches from the same calls, one of them through serialisation: the original is
    solved, the gradient of the copy is zero and no solver can change its loss.  Binary64. *)
Definition s1_heap : heap spec_float := fix_heap zero zero one zero.
Theorem C48_refuted : forall L, let A := ArithF L in exists h s h' s', valid h s /\ finite_data h s /\
  deserialize (serialize h s) heap0 = (h', s') /\
  snd (get_gradient s h) = Val [fm1; zero] /\ snd (get_gradient s' h') = Val [zero; zero] /\
  snd (solve nopinv (BFGS bfgs_default) s h) = Val (SOk tt) /\ get_loss (fst (solve nopinv (BFGS bfgs_default) s h)) s = zero /\
  snd (solve nopinv (BFGS bfgs_default) s' h') = Val (SOk tt) /\ get_loss (fst (solve nopinv (BFGS bfgs_default) s' h')) s' = lit64 5 1.
Proof.
  intros L A. exists s1_heap, fix_sketch, (fst (deserialize (serialize s1_heap fix_sketch) heap0)), (snd (deserialize (serialize s1_heap fix_sketch) heap0)).
  assert (V : valid s1_heap fix_sketch) by (apply fix_valid; reflexivity). split; [exact V|].
  split; [apply (finite_iff _ _ (valid_keys _ _ V)); vm_compute; reflexivity|].
  split; [apply surjective_pairing|]. vm_compute. repeat split.
Qed.
(** What happens instead, in every arithmetic.  Nothing in the copy is shared: *)
Theorem C48_unshared_partial : forall {F} {A : Arith F} (h h0 h' : heap F) s s', valid h s ->
  deserialize (serialize h s) h0 = (h', s') -> heap_ok h0 ->
  (forall c r, registered s' c -> In r (prim_refs h' c) -> ~ registered s' r) /\
  (forall k x, In k (s_cons s') -> reads h' k x -> ~ registered s' x) /\
  (forall c1 c2 r, registered s' c1 -> registered s' c2 -> In r (prim_refs h' c1) -> In r (prim_refs h' c2) -> c1 = c2) /\
  (forall k1 k2 x, In k1 (s_cons s') -> In k2 (s_cons s') -> reads h' k1 x -> reads h' k2 x -> k1 = k2) /\
  (forall c r k x, registered s' c -> In r (prim_refs h' c) -> In k (s_cons s') -> reads h' k x -> x <> r) /\
  (forall c, registered s' c -> ~ cell_ok h0 c) /\
  (forall k x, In k (s_cons s') -> length (h_cons h0) <= k /\ (reads h' k x -> ~ cell_ok h0 x)).
Proof. exact @C48_unshared_lemma. Qed.
(** so its gradient and Jacobian vanish, *)
Theorem C48_gradient_partial : forall {F} {A : Arith F} (h h0 h' : heap F) s s', valid h s -> heap_ok h0 ->
  deserialize (serialize h s) h0 = (h', s') ->
  (forall h1 g, get_gradient s' h' = (h1, Val g) -> Forall (fun x => x = f0) g) /\
  (forall h1 J, get_jacobian s' h' = (h1, Val J) -> Forall (Forall (fun x => x = f0)) J).
Proof. exact @C48_gradient_lemma. Qed.
(** its losses keep the values they had when it was serialised, whatever the solver or new data, *)
Theorem C48_loss_partial : forall {F} {A : Arith F} (h h0 h' : heap F) s s', valid h s -> heap_ok h0 ->
  deserialize (serialize h s) h0 = (h', s') ->
  forall pinv sol v, get_loss_per_constraint (fst (solve pinv sol s' h')) s' = get_loss_per_constraint h s /\
                     get_loss_per_constraint (fst (set_data s' v h')) s' = get_loss_per_constraint h s.
Proof. exact @C48_loss_lemma. Qed.
(** and (exact arithmetic) the gradient based solvers leave its data as they are. *)
Theorem C48_inert_partial : forall pinv sol (h h0 h' : heap xR) s s', valid h s -> finite_data h s -> all_con_finite h s -> heap_ok h0 ->
  deserialize (serialize h s) h0 = (h', s') -> match sol with GradientBased _ | BFGS _ => True | _ => False end ->
  get_data (fst (solve pinv sol s' h')) s' = get_data h s.
Proof. exact C48_inert_lemma. Qed.
(** [sd_sketch] (above) and, exactly, [fx_sketch] meet the hypotheses; the first has non-zero losses *)
Example C48_example : forall L, let A := ArithF L in
  valid (sd_heap L) sd_sketch /\ heap_ok (sd_heap L) /\
  (exists h' s', deserialize (serialize (sd_heap L) sd_sketch) (sd_heap L) = (h', s') /\ s_cons s' = [4; 5; 6; 7]) /\
  SFltb zero (nth 1 (get_loss_per_constraint (sd_heap L) sd_sketch) zero) = true.
Proof.
  intros L A. destruct (C47_example L) as (V & O & h' & s' & E & _). split; [exact V|]. split; [exact O|].
  split; [|vm_compute; reflexivity].
  exists (fst (deserialize (serialize (sd_heap L) sd_sketch) (sd_heap L))), (snd (deserialize (serialize (sd_heap L) sd_sketch) (sd_heap L))).
  split; [apply surjective_pairing|]. cbv. reflexivity.
Qed.
Example C48_exact_example : valid fx_heap fx_sketch /\ finite_data fx_heap fx_sketch /\ all_con_finite fx_heap fx_sketch /\ heap_ok (heap0 : heap xR) /\
  exists h' s', deserialize (serialize fx_heap fx_sketch) heap0 = (h', s').
Proof.
  split; [exact fx_valid|]. split; [exact fx_finite_data|]. split; [exact fx_finite|].
  split; [repeat split; simpl; intros; lia|]. eexists. eexists. reflexivity.
Qed.

Print Assumptions C47_structure.
Print Assumptions C47_values.
Print Assumptions C47_stable.
Print Assumptions C48_refuted.
Print Assumptions C48_unshared_partial.
Print Assumptions C48_gradient_partial.
Print Assumptions C48_loss_partial.
Print Assumptions C48_inert_partial.
