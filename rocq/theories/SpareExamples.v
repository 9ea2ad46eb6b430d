(** * Adding an unconstrained primitive, and cases for C95 *)
From Coq Require Import List ZArith NArith Arith Bool Lia Reals Lra Sorting.Sorted Floats.SpecFloat.
From Verif Require Import Arith Vec Prim Cons Sketch Solve Spec HeapLemmas SpecLemmas BookLemmas ArithR ArithF ExactSpec NumSpec MirrorExamples ScaleExamples
  ResumeExamples SpareSpec SpareLemmas.
Import ListNotations.

Lemma insert_fresh k (c : pcell) m : ~ In k (map fst m) -> exists l1 l2, map snd m = l1 ++ l2 /\ map snd (bt_insert k c m) = l1 ++ c :: l2.
Proof.
  induction m as [|[k' c'] m IH]; intros H; [exists [], []; auto|]. cbn [bt_insert].
  destruct (N.ltb_spec k k') as [Hl|Hl]; [now exists [], (c' :: map snd m)|].
  destruct (N.eqb_spec k k') as [He|He]; [exfalso; apply H; now left|].
  destruct IH as (l1 & l2 & E1 & E2); [intros X; apply H; now right|]. exists (c' :: l1), l2. cbn [map snd app]. now rewrite E1, E2.
Qed.
Lemma C95_add_lemma {F} {A : Arith F} (h : heap F) s c s' id : valid h s -> ~ In (s_next s) (map fst (s_prims s)) -> add_primitive h s c = (s', ROk id) ->
  (forall k, In k (s_cons s) -> ~ In c (deps h (getK h k))) -> with_spare h s s'.
Proof.
  intros V Hn E Hc. unfold add_primitive in E. destruct (negb _); [discriminate|]. destruct (has_prim s c) eqn:Hp; [discriminate|].
  injection E as <- _. destruct (insert_fresh (s_next s) c (s_prims s) Hn) as (l1 & l2 & E1 & E2).
  split; [reflexivity|]. unfold cells at 2. cbn [s_prims]. rewrite E2.
  assert (Nc : has_cell s c = false) by (destruct (has_cell s c) eqn:X; [apply (keep_iff s) in X; apply has_prim_In in X; congruence|reflexivity]).
  assert (K : forall l, (forall x, In x l -> In x (cells s)) -> filter (has_cell s) l = l).
  { induction l as [|x l IH]; intros H; [reflexivity|]. cbn [filter]. rewrite (proj2 (keep_iff s x)) by (apply H; now left). f_equal. apply IH. intros; apply H; now right. }
  split.
  - rewrite filter_app. cbn [filter]. rewrite Nc, !K; [exact E1| |]; intros x Hx; unfold cells; rewrite E1; apply in_or_app; auto.
  - intros d Hd Hs k Hk. replace d with c; [now apply Hc|]. apply registered_sub in Hd. unfold cells in Hd. cbn [s_prims] in Hd. rewrite E2 in Hd.
    apply in_app_or in Hd as [Hd|[Hd|Hd]]; [exfalso|exact Hd|exfalso]; apply Hs, (valid_reg _ _ _ V); unfold cells; rewrite E1; apply in_or_app; auto.
Qed.

Lemma remove_there k (c : pcell) m : bt_get k m = Some c -> exists l1 l2, map snd m = l1 ++ c :: l2 /\ map snd (bt_remove k m) = l1 ++ l2.
Proof.
  induction m as [|[k' c'] m IH]; intros H; [discriminate|]. cbn [bt_get bt_remove] in *.
  destruct (N.eqb_spec k k') as [He|He]; [injection H as ->; now exists [], (map snd m)|].
  destruct (IH H) as (l1 & l2 & E1 & E2). exists (c' :: l1), l2. cbn [map snd app]. now rewrite E1, E2.
Qed.
Lemma C95_delete_lemma {F} {A : Arith F} (h : heap F) s c s' id : valid h s -> get_primitive_by_id s id = Some c -> delete_primitive s id = (s', ROk tt) ->
  (forall k, In k (s_cons s) -> ~ In c (deps h (getK h k))) -> valid h s' /\ with_spare h s' s.
Proof.
  intros V Hg E Hc. unfold delete_primitive in E. unfold get_primitive_by_id in Hg. rewrite Hg in E. injection E as <-.
  destruct (remove_there _ _ _ Hg) as (l1 & l2 & E1 & E2).
  assert (V' : valid h (mkSketch (bt_remove id (s_prims s)) (s_next s) (s_cons s))).
  { destruct V as [V1 V2 V3 V4 V5 V6]. constructor; cbn [s_prims s_cons]; auto.
    - now apply bt_remove_sorted.
    - now apply bt_remove_nodup.
    - intros d (i & Hd). apply V5. exists i. unfold get_primitive_by_id in *. cbn [s_prims] in Hd. rewrite bt_get_remove in Hd by (apply sorted_nodup; exact V1). now destruct (i =? id)%N. }
  split; [exact V'|]. set (s' := mkSketch _ _ _) in *.
  assert (Ec : cells s' = l1 ++ l2) by exact E2.
  assert (N : NoDup (l1 ++ c :: l2)) by (rewrite <- E1; apply V).
  assert (Nc : has_cell s' c = false).
  { destruct (has_cell s' c) eqn:X; [|reflexivity]. apply (keep_iff s') in X. rewrite Ec in X. exfalso. now apply NoDup_remove_2 in N. }
  assert (K : forall l, (forall x, In x l -> In x (cells s')) -> filter (has_cell s') l = l).
  { induction l as [|x l IH]; intros H; [reflexivity|]. cbn [filter]. rewrite (proj2 (keep_iff s' x)) by (apply H; now left). f_equal. apply IH. intros; apply H; now right. }
  split; [reflexivity|]. split.
  - unfold cells at 2. rewrite E1, filter_app. cbn [filter]. rewrite Nc, !K; [exact Ec| |]; intros x Hx; rewrite Ec; apply in_or_app; auto.
  - intros d Hd Hs k Hk. replace d with c; [now apply Hc|]. apply registered_sub in Hd. unfold cells in Hd. rewrite E1 in Hd.
    apply in_app_or in Hd as [Hd|[Hd|Hd]]; [exfalso|exact Hd|exfalso]; apply Hs, (valid_reg _ _ _ V'); rewrite Ec; apply in_or_app; auto.
Qed.

(** three fixed points, and the same with a fourth point that is free *)
Definition trio_sketch : sketch := mkSketch [(0%N, PPoint 0); (1%N, PPoint 1); (2%N, PPoint 2)] 3%N [0; 1; 2].
Definition four_sketch : sketch := mkSketch [(0%N, PPoint 0); (1%N, PPoint 1); (2%N, PPoint 2); (3%N, PPoint 3)] 4%N [0; 1; 2].
Definition bit : spec_float := S754_finite false 8737783325228564 (-53).
Definition trio_heap : heap spec_float := mkHeap [zp 94906266 0; zp 0 0; zp 0 0; zp 7 7] [] [] []
  [FixPoint 0 (S754_zero false) bit; FixPoint 1 (S754_zero false) (S754_zero false); FixPoint 2 (S754_zero false) bit].
Definition trio_gd := mkGD 1 (two_to (-10)) (S754_finite false 6369051697741825 (-26)).
(** two points in a row and a free one between them in the order of the ids, or after them *)
Definition duo_sketch : sketch := mkSketch [(0%N, PPoint 0); (2%N, PPoint 1)] 3%N [0; 1].
Definition duo_mid : sketch := mkSketch [(0%N, PPoint 0); (1%N, PPoint 2); (2%N, PPoint 1)] 3%N [0; 1].
Definition duo_last : sketch := mkSketch [(0%N, PPoint 0); (2%N, PPoint 1); (3%N, PPoint 2)] 4%N [0; 1].
Definition duo_cons {F} (of : Z -> F) : list (con F) := [HorizontalDistance 0 1 (of 2%Z); FixPoint 0 (of 1%Z) (of 1%Z)].
Definition duo_heap : heap spec_float := mkHeap [zp 0 0; zp 5 0; zp 4 9] [] [] [] (duo_cons of_Z64).
Definition duoR : heap xR := mkHeap [rp 0 0; rp 5 0; rp 4 9] [] [] [] (duo_cons (fun z => Fin (IZR z))).

Ltac spare := split; [reflexivity|]; split; [reflexivity|]; intros c Hc Hn; apply registered_sub in Hc; simpl in Hc;
  repeat (destruct Hc as [<-|Hc]; [try (exfalso; apply Hn; (now exists 0%N) || (now exists 1%N) || (now exists 2%N)); intros k Hk;
    repeat (destruct Hk as [<-|Hk]; [simpl; intuition discriminate|]); destruct Hk|]); destruct Hc.
Section W.
Variable L : libm.
Let A := ArithF L.
Local Existing Instance A.
Lemma trio_facts : valid trio_heap trio_sketch /\ valid trio_heap four_sketch /\ finite_data trio_heap four_sketch /\ with_spare trio_heap trio_sketch four_sketch /\
  get_n_dofs trio_heap trio_sketch = 6 /\ get_n_dofs trio_heap four_sketch = 8.
Proof.
  split; [vld|]. split; [vld|]. split.
  - intros c Hc. apply registered_sub in Hc. cbn [map snd s_prims four_sketch In] in Hc. repeat (destruct Hc as [<-|Hc]; [repeat constructor|]); destruct Hc.
  - split; [spare|]. split; reflexivity.
Qed.
Lemma trio_runs : snd (gd_run trio_sketch trio_gd trio_heap) = Val (SOk 0) /\ snd (gd_run four_sketch trio_gd trio_heap) = Val (SOk 1).
Proof. split; vm_compute; reflexivity. Qed.
Lemma duo_facts : valid duo_heap duo_sketch /\ valid duo_heap duo_last /\ finite_data duo_heap duo_last /\ with_spare duo_heap duo_sketch duo_last /\
  spare_last duo_heap duo_sketch duo_last /\ (forall c, registered duo_last c -> ~ registered duo_sketch c -> Forall canonical (prim_data duo_heap c)) /\
  snd (gd_run duo_sketch chain_gd duo_heap) = Val (SOk 10).
Proof.
  split; [vld|]. split; [vld|]. split; [|split; [spare|split; [|split]]].
  - intros c Hc. apply registered_sub in Hc. cbn [map snd s_prims duo_last In] in Hc. repeat (destruct Hc as [<-|Hc]; [repeat constructor|]); destruct Hc.
  - split; [exists [PPoint 2]; reflexivity|reflexivity].
  - intros c Hc _. apply registered_sub in Hc. cbn [map snd s_prims duo_last In] in Hc. repeat (destruct Hc as [<-|Hc]; [repeat constructor|]); destruct Hc.
  - vm_compute. reflexivity.
Qed.
End W.
Lemma duoR_facts : valid duoR duo_sketch /\ valid duoR duo_mid /\ finite_data duoR duo_mid /\ with_spare duoR duo_sketch duo_mid.
Proof.
  split; [vld|]. split; [vld|]. split; [|spare].
  intros c Hc. apply registered_sub in Hc. cbn [map snd s_prims duo_mid In] in Hc. repeat (destruct Hc as [<-|Hc]; [repeat constructor|]); destruct Hc.
Qed.
