(** * A libm and a sketch that meet the hypotheses of C84 *)
From Coq Require Import List ZArith NArith Arith Bool Reals Lra Lia Floats.SpecFloat.
From Flocq Require Import Core.Core IEEE754.BinarySingleNaN.
From Verif Require Import Arith ArithR ArithF Vec Prim Cons Sketch Solve Api Spec SerdeSpec SpecLemmas WfLemmas FloatLemmas FloatSpec FloatBound
  ExactLemmas ExactSpec RoundSpec RoundTurn RoundExamples SolverWitness DecompExamples AccuracySpec AccuracyLemmas AccuracyForms.
Import ListNotations.
Local Open Scope R_scope.

(** sine and cosine rounded to a multiple of 2^-50 *)
Definition trig_libm : libm := mkLibm (fun x => fix50 (sin (value x))) (fun x => fix50 (cos (value x))) (fun x => x) (fun _ x => x).
Lemma trig_accurate : accurate_sincos trig_libm.
Proof.
  assert (Q : forall a, -1 <= a <= 1 -> finite64 (fix50 a) /\ Rabs (value (fix50 a) - a) <= / 2 ^ 50).
  { intros a B. destruct (fix50_ok a) as (F & _ & E); [pose proof PI2_1; lra|]. split; auto. eapply Rle_trans; [exact E|]. simpl. lra. }
  intros x _. destruct (Q _ (SIN_bound (value x))) as [S1 S2]. destruct (Q _ (COS_bound (value x))) as [C1 C2]. cbn [lm_sin lm_cos trig_libm]. auto.
Qed.

Local Close Scope R_scope.
(** integers, and 2^-600 *)
Definition int64 (z : Z) : spec_float := of_Z64 z.
Definition wee : spec_float := S754_finite false 4503599627370496 (-652).
Definition ax : spec_float := Eval vm_compute in int64 640690043665.
Definition ay : spec_float := Eval vm_compute in int64 451875666528.
Definition ad : spec_float := Eval vm_compute in int64 784012340497.
Definition i3 : spec_float := Eval vm_compute in int64 3.
Definition i4 : spec_float := Eval vm_compute in int64 4.
Definition z0 : spec_float := S754_zero false.
Definition acc_ops : list (op spec_float) :=
  [AddPoint2 z0 z0; AddPoint2 ax ay; AddPoint2 wee z0; AddPoint2 i3 i4; AddLine 0 1; AddLine 0 3; AddArc 1 i3 true i4 i3;
   Constrain (EuclideanDistance 0 1 ad); Constrain (HorizontalDistance 0 2 z0); Constrain (ParallelLines 0 1); Constrain (ArcEndPointCoincident 0 3)].
Definition acc_heap : heap spec_float :=
  mkHeap [mkPoint z0 z0 z0 z0; mkPoint ax ay z0 z0; mkPoint wee z0 z0 z0; mkPoint i3 i4 z0 z0]
         [mkLine 0 1; mkLine 0 3] [mkArc 1 i3 i4 i3 z0 z0 z0 true] []
         [EuclideanDistance 0 1 ad; HorizontalDistance 0 2 z0; ParallelLines 0 1; ArcEndPointCoincident 0 3].
Definition acc_sketch : sketch :=
  mkSketch [(0%N, PPoint 0); (1%N, PPoint 1); (2%N, PPoint 2); (3%N, PPoint 3); (4%N, PLine 0); (5%N, PLine 1); (6%N, PArc 0)] 7%N [0; 1; 2; 3].
Ltac stepA := match goal with |- ?t = ?r => let x := eval vm_compute in t in unify r x; vm_cast_no_check (eq_refl x) end.
Lemma acc_run L : let A := ArithF L in exists rs, run nopinv init acc_ops rs (acc_heap, acc_sketch).
Proof. intros A. eexists. unfold acc_ops. repeat (first [apply run_nil | eapply run_cons; [okF | stepA |]]). Qed.

Lemma acc_valid L : let A := ArithF L in valid acc_heap acc_sketch.
Proof. intros A. destruct (acc_run L) as [rs R]. exact (reachable_valid nopinv _ _ _ R eq_refl). Qed.
Local Open Scope R_scope.
Lemma val_fin s m e : value (S754_finite s m e) = IZR (if s then Zneg m else Zpos m) * bp e.
Proof. rewrite value_r64. unfold r64, SF2R, F2R. cbn [Fnum Fexp]. destruct s; reflexivity. Qed.

Lemma value_zero : value z0 = 0. Proof. reflexivity. Qed.
Lemma v_ax : value ax = 640690043665.
Proof. unfold ax. rewrite val_fin. change (bp (-13)) with (/ 8192). lra. Qed.
Lemma v_ay : value ay = 451875666528.
Proof. unfold ay. rewrite val_fin. change (bp (-14)) with (/ 16384). lra. Qed.
Lemma v_ad : value ad = 784012340497.
Proof. unfold ad. rewrite val_fin. change (bp (-13)) with (/ 8192). lra. Qed.
Lemma v_3 : value i3 = 3. Proof. unfold i3. rewrite val_fin. change (bp (-51)) with (/ 2251799813685248). lra. Qed.
Lemma v_4 : value i4 = 4. Proof. unfold i4. rewrite val_fin. change (bp (-50)) with (/ 1125899906842624). lra. Qed.
Lemma v_wee : value wee = bp (-600).
Proof. unfold wee. rewrite val_fin. change 4503599627370496 with (bp 52). rewrite <- bpow_plus. reflexivity. Qed.
Lemma v_wee_small : 0 < value wee <= 1.
Proof. rewrite v_wee. split; [apply bpow_gt_0|]. change 1 with (bp 0). apply bpow_le. lia. Qed.
Definition acc_M : R := 2 ^ 40.
Lemma acc_M_val : acc_M = 1099511627776. Proof. unfold acc_M. simpl. lra. Qed.
Lemma acc_M_range : / 2 ^ 100 <= acc_M <= 2 ^ 100.
Proof.
  rewrite acc_M_val. pose proof (pow_lt 2 100 ltac:(lra)). assert (1 <= 2 ^ 100) by (apply pow_R1_Rle; lra). split.
  - apply Rle_trans with 1; [|lra]. rewrite <- Rinv_1. apply Rinv_le_contravar; lra.
  - replace 1099511627776 with (2 ^ 40) by (simpl; lra). apply Rle_pow; [lra | lia].
Qed.
Ltac wi := split; [split; reflexivity|]; rewrite acc_M_val, ?value_zero, ?v_ax, ?v_ay, ?v_ad, ?v_3, ?v_4; pose proof v_wee_small; apply Rabs_le; lra.
Lemma acc_measurable L k : In k (s_cons acc_sketch) -> measurable L acc_M acc_heap k.
Proof.
  intros Hk. assert (W : within acc_M z0 /\ within acc_M ax /\ within acc_M ay /\ within acc_M wee /\ within acc_M i3 /\ within acc_M i4 /\ within acc_M ad) by (repeat (apply conj; [wi|]); wi).
  destruct W as (W1 & W2 & W3 & W4 & W5 & W6 & W7).
  assert (PD : forall p, List.Forall (within acc_M) (@prim_data _ (ArithF L) acc_heap (PPoint p))).
  { assert (T : forall u v, within acc_M u -> within acc_M v -> List.Forall (within acc_M) [u; v]) by (intros; constructor; [auto|]; constructor; auto).
    intros [|[|[|[|p]]]]; apply T; auto; destruct p; exact W1. }
  split; [intros p _; apply PD|]. split.
  { intros a (r & Hr & Hx). destruct a as [|a].
    - cbn. split; [auto|]. split; [apply W6 | apply W5].
    - exfalso. cbn [s_cons acc_sketch In] in Hk. repeat (destruct Hk as [<-|Hk]; [cbn in Hr; repeat (destruct Hr as [<-|Hr]; [destruct Hx as [Hx|Hx]; [discriminate Hx|]; cbn in Hx; repeat (destruct Hx as [Hx|Hx]; [discriminate Hx|]); exact Hx|]); exact Hr|]). exact Hk. }
  split.
  { cbn [s_cons acc_sketch In] in Hk. repeat (destruct Hk as [<-|Hk]; [cbn; first [apply Forall_nil | apply Forall_cons; [assumption | apply Forall_nil]]|]); tauto. }
  cbn [s_cons acc_sketch In] in Hk. destruct Hk as [<-|[<-|[<-|[<-|[]]]]]; try exact I.
  assert (E1 : cx (cfg_of (exact_heap acc_heap)) 0%nat = 0) by reflexivity.
  assert (Q : forall l, (1 <= Rabs (fst (dirR (cfg_of (exact_heap acc_heap)) (exact_heap acc_heap) l))) -> / 2 ^ 100 <= len (dirR (cfg_of (exact_heap acc_heap)) (exact_heap acc_heap) l)).
  { intros l B. destruct (comp_le (dirR (cfg_of (exact_heap acc_heap)) (exact_heap acc_heap) l)) as [C _]. apply Rle_trans with 1; [|lra]. rewrite <- Rinv_1. apply Rinv_le_contravar; [lra|]. apply pow_R1_Rle. lra. }
  split; apply Q.
  - change (1 <= Rabs (value ax - 0)). rewrite v_ax. rewrite Rabs_pos_eq; lra.
  - change (1 <= Rabs (value i3 - 0)). rewrite v_3. rewrite Rabs_pos_eq; lra.
Qed.
(** the first constraint holds but its loss is positive; the second does not hold but its loss is zero *)
Lemma acc_first L : let A := ArithF L in discrepancy acc_heap 0%nat = 0 /\ 0 < value (loss_value acc_heap (getK acc_heap 0%nat)).
Proof.
  intros A. split.
  - change (sqrt (sq (len (0 - value ax, 0 - value ay) - value ad)) = 0). rewrite v_ax, v_ay, v_ad.
    replace (len (0 - 640690043665, 0 - 451875666528)) with 784012340497; [unfold sq; rewrite Rminus_diag_eq by auto; rewrite Rmult_0_l; apply sqrt_0|].
    unfold len. cbn [fst snd]. replace ((0 - 640690043665) * (0 - 640690043665) + (0 - 451875666528) * (0 - 451875666528)) with (784012340497 * 784012340497) by lra. rewrite sqrt_square; lra.
  - match goal with |- 0 < value ?x => let y := eval vm_compute in x in replace x with y by (vm_compute; reflexivity) end.
    rewrite val_fin. apply Rmult_lt_0_compat; [lra | apply bpow_gt_0].
Qed.
Lemma acc_second L : let A := ArithF L in discrepancy acc_heap 1%nat = value wee /\ 0 < value wee /\ loss_value acc_heap (getK acc_heap 1%nat) = S754_zero false.
Proof.
  intros A. pose proof v_wee_small. split; [|split; [lra | vm_compute; reflexivity]].
  change (sqrt (sq (value wee - 0 - 0)) = value wee). rewrite !Rminus_0_r. apply sqrt_square. lra.
Qed.
(** a point to be moved to a place *)
Lemma fix_measurable L M x y a b u v : within M x -> within M y -> within M u -> within M v ->
  measurable L M (mkHeap [mkPoint x y a b] [] [] [] [FixPoint 0%nat u v]) 0%nat.
Proof.
  intros X Y W Z. split; [|split; [|split; [|exact I]]].
  - intros p (r & Hr & Hx). cbn in Hr. destruct Hr as [<-|[]]. destruct Hx as [Hx|[]]. injection Hx as ->. repeat (apply Forall_cons; [assumption|]). apply Forall_nil.
  - intros q (r & Hr & Hx). cbn in Hr. destruct Hr as [<-|[]]. destruct Hx as [Hx|[]]. discriminate Hx.
  - cbn. repeat (apply Forall_cons; [assumption|]). apply Forall_nil.
Qed.
Lemma within_small x : finite64 x -> SFleb (SFabs x) (S754_finite false 4503599627370496 (-50)) = true -> within 4 x.
Proof.
  intros F B. split; auto. destruct (abs_real x F) as [Fa Ea]. apply (leb_R _ _ Fa) in B; [|split; reflexivity]. rewrite Ea, <- !value_r64, val_fin in B.
  change (bp (-50)) with (/ 1125899906842624) in B. lra.
Qed.
