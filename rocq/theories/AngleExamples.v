(** * A libm and sketches that meet the hypotheses of C92 *)
From Coq Require Import List ZArith NArith Arith Bool Reals Lra Lia Floats.SpecFloat.
From Flocq Require Import Core.Core IEEE754.BinarySingleNaN.
From Verif Require Import Arith ArithR ArithF Vec Prim Cons Sketch Solve Api Spec SerdeSpec SpecLemmas WfLemmas FloatLemmas FloatSpec FloatBound
  ExactLemmas ExactSpec RoundSpec RoundRem RoundTurn RoundExamples SolverWitness DecompExamples AccuracySpec AccuracyLemmas AccuracyForms AccuracyExamples AngleSpec AngleLemmas AngleForms.
Import ListNotations.
Local Open Scope R_scope.

(** sine, cosine and arc cosine rounded to a multiple of 2^-50 *)
Definition angle_libm : libm := mkLibm (fun x => fix50 (sin (value x))) (fun x => fix50 (cos (value x))) (fun x => fix50 (acos (value x))) (fun _ x => x).
Lemma angle_sincos : accurate_sincos angle_libm. Proof. exact trig_accurate. Qed.
Lemma angle_acos : accurate_acos angle_libm.
Proof.
  intros x _. destruct (fix50_ok (acos (value x))) as (F & _ & E); [pose proof (acos_bound (value x)); lra|]. split; [exact F|]. eapply Rle_trans; [exact E|]. simpl. lra.
Qed.

Local Close Scope R_scope.
Definition o1 : spec_float := Eval vm_compute in of_Z64 1.
(** the middle point, two points at the same place, and one at distance 5; the second constraint has a degenerate arm *)
Definition ang_ops : list (op spec_float) :=
  [AddPoint2 z0 z0; AddPoint2 o1 o1; AddPoint2 o1 o1; AddPoint2 i3 i4;
   Constrain (AngleBetweenPoints 1 2 0 z0); Constrain (AngleBetweenPoints 1 2 1 o1); Constrain (AngleBetweenPoints 1 3 0 o1); Constrain (EuclideanDistance 0 3 i4)].
Definition ang_heap : heap spec_float :=
  mkHeap [mkPoint z0 z0 z0 z0; mkPoint o1 o1 z0 z0; mkPoint o1 o1 z0 z0; mkPoint i3 i4 z0 z0] [] [] []
         [AngleBetweenPoints 1 2 0 z0; AngleBetweenPoints 1 2 1 o1; AngleBetweenPoints 1 3 0 o1; EuclideanDistance 0 3 i4].
Definition ang_sketch : sketch :=
  mkSketch [(0%N, PPoint 0); (1%N, PPoint 1); (2%N, PPoint 2); (3%N, PPoint 3)] 4%N [0; 1; 2; 3].
Lemma ang_run L : let A := ArithF L in exists rs, run nopinv init ang_ops rs (ang_heap, ang_sketch).
Proof. intros A. eexists. unfold ang_ops. repeat (first [apply run_nil | eapply run_cons; [okF | stepA |]]). Qed.
Lemma ang_valid L : let A := ArithF L in valid ang_heap ang_sketch.
Proof. intros A. destruct (ang_run L) as [rs R]. exact (reachable_valid nopinv _ _ _ R eq_refl). Qed.
Local Open Scope R_scope.
Lemma v_1 : value o1 = 1. Proof. unfold o1. rewrite value_fin. change (bp (-52)) with (/ 4503599627370496). lra. Qed.
Definition ang_M : R := 4.
Lemma ang_M_range : / 2 ^ 100 <= ang_M <= 2 ^ 100.
Proof.
  unfold ang_M. assert (1 <= 2 ^ 98) by (apply pow_R1_Rle; lra). change (2 ^ 100) with (2 * (2 * 2 ^ 98)). split; [|lra].
  apply Rle_trans with 1; [|lra]. rewrite <- Rinv_1. apply Rinv_le_contravar; lra.
Qed.
Ltac wa := split; [split; reflexivity|]; rewrite ?value_zero, ?v_1, ?v_3, ?v_4; unfold ang_M; apply Rabs_le; lra.
Lemma ang_within : within 4 z0 /\ within 4 o1 /\ within 4 i3 /\ within 4 i4.
Proof. repeat (apply conj; [wa|]); wa. Qed.
Lemma within_20 x : within 4 x -> within (2 ^ 20) x. Proof. intros [F B]. split; auto. simpl. lra. Qed.
Lemma long_1 v : 1 <= len v -> long (len v). Proof. intros B. unfold long, tiny. simpl. lra. Qed.
Lemma short_0 v : len v = 0 -> short (len v). Proof. intros ->. unfold short, tiny. simpl. lra. Qed.
Lemma len_fst u v : 1 <= Rabs u -> 1 <= len (u, v). Proof. intros B. destruct (comp_le (u, v)) as [C _]. cbn [fst] in C. lra. Qed.
Lemma ang_long1 : long (arm ang_heap 0%nat 1%nat).
Proof. apply long_1, len_fst. change (1 <= Rabs (value o1 - 0)). rewrite v_1, Rabs_pos_eq; lra. Qed.
Lemma ang_long3 : long (arm ang_heap 0%nat 3%nat).
Proof. apply long_1, len_fst. change (1 <= Rabs (value i3 - 0)). rewrite v_3, Rabs_pos_eq; lra. Qed.
Lemma ang_short : short (arm ang_heap 1%nat 2%nat).
Proof.
  apply short_0. change (len (value o1 - value o1, value o1 - value o1) = 0). rewrite v_1. unfold len. cbn [fst snd]. replace ((1 - 1) * (1 - 1) + (1 - 1) * (1 - 1)) with 0 by ring. apply sqrt_0.
Qed.
Lemma ang_measurable L k : In k (s_cons ang_sketch) -> measurable_any L ang_M ang_heap k.
Proof.
  intros Hk. destruct ang_within as (W1 & W2 & W3 & W4).
  assert (PD : forall p, placed L ang_M ang_heap p).
  { assert (T : forall u v, within 4 u -> within 4 v -> List.Forall (within 4) [u; v]) by (intros; constructor; [auto|]; constructor; auto).
    intros [|[|[|[|p]]]]; apply T; auto; destruct p; exact W1. }
  pose proof ang_long1 as A01. pose proof ang_long3 as A03. pose proof ang_short as A12.
  assert (A02 : long (arm ang_heap 0%nat 2%nat)) by exact A01. assert (A11 : short (arm ang_heap 1%nat 1%nat)) by exact A12.
  cbn [s_cons ang_sketch In] in Hk. destruct Hk as [<-|[<-|[<-|[<-|[]]]]]; unfold measurable_any; cbn [getK nth h_cons ang_heap].
  1-3: split; [apply PD|]; split; [apply PD|]; split; [apply PD|]; split; [apply within_20; assumption|]; split; auto.
  split; [intros p _; apply PD|]. split; [|split; [constructor; [exact W4 | constructor] | exact I]].
  intros a (r & Hr & Hx). exfalso. cbn in Hr. destruct Hr as [<-|[<-|[]]]; destruct Hx as [Hx|Hx]; [discriminate Hx | exact Hx | discriminate Hx | exact Hx].
Qed.

(** ** two arms that coincide *)
Definition near1 : spec_float := Eval vm_compute in @fdiv _ (ArithF (mkLibm (fun x => x) (fun x => x) (fun x => x) (fun _ x => x))) (of_Z64 2) (SFmul 53 1024 (SFsqrt 53 1024 (of_Z64 2)) (SFsqrt 53 1024 (of_Z64 2))).
Lemma near1_val : within 1 near1 /\ value near1 = 1 - / 2 ^ 52.
Proof.
  assert (E : value near1 = 1 - / 2 ^ 52). { unfold near1. rewrite value_fin. change (bp (-53)) with (/ 9007199254740992). simpl. lra. }
  split; auto. split; [split; reflexivity|]. rewrite E. apply Rabs_le. simpl. lra.
Qed.
Lemma coincide_angle L : let A := ArithF L in current_angle ang_heap 1%nat 2%nat 0%nat = lm_acos L near1.
Proof. intros A. vm_compute. reflexivity. Qed.
Lemma coincide_exact : angle_at ang_heap 1%nat 2%nat 0%nat = 0.
Proof.
  unfold angle_at, angleR. change (from_to (cfg_of (exact_heap ang_heap)) 0%nat 1%nat) with (value o1 - 0, value o1 - 0). change (from_to (cfg_of (exact_heap ang_heap)) 0%nat 2%nat) with (value o1 - 0, value o1 - 0). rewrite v_1.
  set (w := (1 - 0, 1 - 0)). cbv zeta. rewrite len_sq. unfold dotR, w. cbn [fst snd]. replace ((1 - 0) * (1 - 0) + (1 - 0) * (1 - 0)) with 2 by ring. unfold Rdiv. rewrite Rinv_r by lra. apply acos_1.
Qed.
Lemma acos_below a : 0 <= a <= 1 -> 2 * (1 - a) <= acos a * acos a.
Proof.
  intros A. pose proof (acos_bound a) as [B1 B2]. pose proof (cos_acos a ltac:(lra)) as C. set (x := acos a) in *. replace x with (2 * (x / 2)) in C by field. rewrite cos_2a_sin in C.
  destruct (Req_dec x 0) as [E|E].
  - rewrite E in *. replace (0 / 2) with 0 in C by field. rewrite sin_0 in C. lra.
  - assert (S : sin (x / 2) < x / 2) by (apply sin_lt_x; lra). assert (0 <= sin (x / 2)) by (apply sin_ge_0; lra). nra.
Qed.
Lemma coincide_lemma L : accurate_acos L -> let A := ArithF L in / 2 ^ 26 <= value (current_angle ang_heap 1%nat 2%nat 0%nat).
Proof.
  intros AC. pose proof (coincide_angle L) as Q. cbv zeta in Q |- *. rewrite Q. clear Q. destruct near1_val as [W E]. destruct (AC _ W) as [_ D]. rewrite E in D.
  assert (P52 : / 2 ^ 52 = / 4503599627370496) by (simpl; lra). assert (P50 : / 2 ^ 50 = / 1125899906842624) by (simpl; lra). assert (P26 : / 2 ^ 26 = / 67108864) by (simpl; lra).
  pose proof (acos_below (1 - / 2 ^ 52)) as B. rewrite P52 in *. specialize (B ltac:(lra)). pose proof (acos_bound (1 - / 4503599627370496)) as [B1 _]. set (x := acos _) in *. apply Rabs_le_inv in D. rewrite P50 in D. rewrite P26.
  assert (209 / 10 / 1000000000 <= x); [|lra]. apply Rsqr_incr_0_var; [unfold Rsqr|]; lra.
Qed.

(** ** a sketch that gradient descent and BFGS solve in one step: a degenerate angle, and a point to be moved *)
Local Close Scope R_scope.
Definition stop_ops : list (op spec_float) :=
  [AddPoint2 z0 z0; AddPoint2 z0 z0; AddPoint2 i3 i4; Constrain (AngleBetweenPoints 0 1 0 z0); Constrain (FixPoint 2 o1 i4)].
Definition stop_heap (x : spec_float) (g : spec_float) : heap spec_float :=
  mkHeap [mkPoint z0 z0 z0 z0; mkPoint z0 z0 z0 z0; mkPoint x i4 g z0] [] [] [] [AngleBetweenPoints 0 1 0 z0; FixPoint 2 o1 i4].
Definition stop_sketch : sketch := mkSketch [(0%N, PPoint 0); (1%N, PPoint 1); (2%N, PPoint 2)] 3%N [0; 1].
Lemma stop_run L : let A := ArithF L in exists rs, run nopinv init stop_ops rs (stop_heap i3 z0, stop_sketch).
Proof. intros A. eexists. unfold stop_ops. repeat (first [apply run_nil | eapply run_cons; [okF | stepA |]]). Qed.
Lemma stop_valid L : let A := ArithF L in valid (stop_heap i3 z0) stop_sketch.
Proof. intros A. destruct (stop_run L) as [rs R]. exact (reachable_valid nopinv _ _ _ R eq_refl). Qed.
Local Open Scope R_scope.
Lemma stop_measurable L x g k : within 4 x -> In k (s_cons stop_sketch) -> measurable_any L ang_M (stop_heap x g) k.
Proof.
  intros Wx Hk. destruct ang_within as (W1 & W2 & W3 & W4).
  assert (PD : forall p, placed L ang_M (stop_heap x g) p).
  { assert (T : forall u v, within 4 u -> within 4 v -> List.Forall (within 4) [u; v]) by (intros; constructor; [auto|]; constructor; auto).
    intros [|[|[|p]]]; apply T; auto; destruct p; exact W1. }
  assert (S : forall q, (q <= 1)%nat -> short (arm (stop_heap x g) 0%nat q)).
  { intros q Q. apply short_0. assert (E : from_to (cfg_of (exact_heap (stop_heap x g))) 0%nat q = (0 - 0, 0 - 0)) by (destruct q as [|[|q]]; [reflexivity | reflexivity | exfalso; lia]).
    rewrite E. unfold len. cbn [fst snd]. replace ((0 - 0) * (0 - 0) + (0 - 0) * (0 - 0)) with 0 by ring. apply sqrt_0. }
  cbn [s_cons stop_sketch In] in Hk. destruct Hk as [<-|[<-|[]]]; unfold measurable_any; cbn [getK nth h_cons stop_heap].
  - split; [apply PD|]; split; [apply PD|]; split; [apply PD|]; split; [apply within_20; assumption|]. split; right; apply S; lia.
  - split; [intros p _; apply PD|]. split; [|split; [constructor; [exact W2 | constructor; [exact W4 | constructor]] | exact I]].
    intros a (r & Hr & Hx). exfalso. cbn in Hr. destruct Hr as [<-|[]]; destruct Hx as [Hx|Hx]; [discriminate Hx | exact Hx].
Qed.
Lemma stop_gd L : let A := ArithF L in gd_run stop_sketch gd_default (stop_heap i3 z0) = (stop_heap o1 z0, Val (SOk 1%nat)).
Proof. intros A. vm_compute. reflexivity. Qed.
Lemma stop_bfgs L : let A := ArithF L in bfgs_run stop_sketch bfgs_default (stop_heap i3 z0) = (stop_heap o1 z0, Val (SOk 1%N)).
Proof. intros A. vm_compute. reflexivity. Qed.
