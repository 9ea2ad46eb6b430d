(** * A pseudo-inverse of exact arithmetic for diagonal matrices, and a case for Gauss-Newton and Levenberg-Marquardt (for C95) *)
From Coq Require Import List ZArith NArith Arith Bool Lia Reals Lra.
From Verif Require Import Arith Vec Prim Cons Sketch Solve Spec HeapLemmas SpecLemmas ArithR ExactSpec MotionSpec StallSpec ExactLemmas RMat NlsMat GradLemmas
  MotionExamples MirrorExamples ScaleExamples ResumeExamples SpareSpec SpareLemmas SpareForms SpareExamples SpareLm DerivLemmas SearchLemmas StepLemmas ExactRun ConserveLemmas DataLemmas ExactLemmas RMat NlsMat.
Import ListNotations.
Local Open Scope R_scope.

Definition diag (d : list R) : list (list R) := map2 sclL d (idL (length d)).
Definition dinv (x : R) : R := if Req_EM_T x 0 then 0 else / x.
Definition clear_of (e : R) (x : R) : Prop := x = 0 \/ e < x.
Definition clear_dec e x : {clear_of e x} + {~ clear_of e x}.
Proof. unfold clear_of. destruct (Req_EM_T x 0) as [H|H]; [left; now left|]. destruct (Rlt_dec e x) as [K|K]; [left; now right|]. right. intros [|]; contradiction. Defined.
(** inverts diagonal matrices whose entries are zero or above the tolerance, and gives up on others *)
Definition diag_pinv (m : mat xR) (eps : xR) : pinv_res (mat xR) :=
  let a := map (map vx) m in let d := map (fun i => nth i (nth i a []) 0) (seq 0 (length a)) in
  match eps with
  | Fin e =>
      if list_eq_dec (list_eq_dec Req_EM_T) a (diag d)
      then if Forall_dec (clear_of e) (clear_dec e) d then PInv (map (map Fin) (diag (map dinv d))) else PErr
      else PErr
  | _ => PErr
  end.

Lemma mul_map2 d : forall m v, mulL (map2 sclL d m) v = map2 Rmult d (mulL m v).
Proof. induction d as [|x d IH]; intros [|r m] v; try reflexivity. cbn [map2 mulL map]. rewrite dot_scl_l. f_equal. apply IH. Qed.
Lemma mul_diag d v : length v = length d -> mulL (diag d) v = map2 Rmult d v.
Proof. intros L. unfold diag. rewrite mul_map2, id_mul by exact L. reflexivity. Qed.
Lemma map2_len d v : length v = length d -> length (map2 Rmult d v) = length d.
Proof. intros L. apply map2_length. congruence. Qed.
Lemma dot_diag d : forall x v, length x = length d -> length v = length d -> dotL x (map2 Rmult d v) = dotL v (map2 Rmult d x).
Proof.
  induction d as [|a d IH]; intros [|b x] [|c v] L1 L2; try discriminate; [reflexivity|]. injection L1 as L1. injection L2 as L2.
  unfold dotL in *. cbn [map2 sumR fold_right]. fold (sumR (map2 Rmult x (map2 Rmult d v))) (sumR (map2 Rmult v (map2 Rmult d x))). rewrite (IH x v L1 L2). ring.
Qed.
Lemma scl_rows2 k d : forall m, Forall (fun r : list R => length r = k) m -> Forall (fun r : list R => length r = k) (map2 sclL d m).
Proof. induction d as [|x d IH]; intros [|r m] H; try constructor; inversion H; subst; [now rewrite sclL_length | now apply IH]. Qed.
Lemma sym_diag d : symmetric (length d) (diag d).
Proof.
  destruct (id_square (length d)) as [I1 I2]. split; [unfold diag; rewrite map2_length; [reflexivity | congruence]|]. split.
  - unfold diag. now apply scl_rows2.
  - intros x v L1 L2. change mulR with mulL. rewrite !mul_diag by auto. now apply dot_diag.
Qed.
Lemma map2_map2 (f g k : R -> R) d : (forall x, In x d -> f x * g x = k x) -> forall v, map2 Rmult (map f d) (map2 Rmult (map g d) v) = map2 Rmult (map k d) v.
Proof.
  induction d as [|x d IH]; intros H [|y v]; try reflexivity. cbn [map map2]. rewrite IH by (intros; apply H; now right). f_equal.
  rewrite <- (H x (or_introl eq_refl)). ring.
Qed.
Lemma dinv_3 x : x * (dinv x * x) = x. Proof. unfold dinv. destruct (Req_EM_T x 0) as [->|H]; [lra | field; auto]. Qed.
Lemma dinv_4 x : dinv x * (x * dinv x) = dinv x. Proof. unfold dinv. destruct (Req_EM_T x 0) as [->|H]; [lra | field; auto]. Qed.
Lemma diag_full d : full_inverse (length d) (diag d) (diag (map dinv d)).
Proof.
  assert (E : forall v, length v = length d -> mulL (diag (map dinv d)) v = map2 Rmult (map dinv d) v) by (intros; apply mul_diag; now rewrite map_length).
  assert (Li : forall v, length v = length d -> length (map2 Rmult (map dinv d) v) = length d) by (intros; rewrite map2_length; rewrite map_length; congruence).
  pose proof (map2_len d) as Ld. pose proof (mul_diag d) as Ed.
  split; [split; [|split]|]; change mulR with mulL.
  - pose proof (sym_diag (map dinv d)) as S. now rewrite map_length in S.
  - intros v L. rewrite (E v L), (mul_diag d) by auto. rewrite E by auto. rewrite <- (map_id d) at 2.
    rewrite (map2_map2 (fun x => x) dinv (fun x => x * dinv x)) by reflexivity. apply (map2_map2 dinv (fun x => x * dinv x)). intros; apply dinv_4.
  - intros v L. rewrite (mul_diag d v), (E v) by auto. rewrite (mul_diag d), E by auto. rewrite <- (map_id d) at 2 3.
    rewrite (map2_map2 dinv (fun x => x) (fun x => x * dinv x)) by (intros; ring). now rewrite (map2_map2 (fun x => x) dinv (fun x => x * dinv x)).
  - intros v L. rewrite (mul_diag d v), E by auto. rewrite (mul_diag d) by auto. rewrite <- (map_id d) at 1 3 4.
    rewrite (map2_map2 dinv (fun x => x) (fun x => dinv x * x)) by reflexivity. apply (map2_map2 (fun x => x)). intros; apply dinv_3.
Qed.
Lemma diag_pinv_val m e Q : diag_pinv (map (map Fin) m) e = PInv Q -> exists d eps, e = Fin eps /\ m = diag d /\ Forall (clear_of eps) d /\ Q = map (map Fin) (diag (map dinv d)).
Proof.
  unfold diag_pinv. rewrite vx_FinM. destruct e as [e| | |]; try discriminate. destruct (list_eq_dec _ _ _) as [E|]; [|discriminate].
  destruct (Forall_dec _ _ _) as [H|]; [|discriminate]. intros [= <-]. eexists. exists e. split; [reflexivity|]. split; [exact E|]. split; [exact H|reflexivity].
Qed.
Lemma diag_len d : length (diag d) = length d.
Proof. unfold diag. rewrite map2_length; [reflexivity|]. symmetry. apply id_square. Qed.
Lemma map2_nth d : forall m i, (i < length d)%nat -> length m = length d -> nth i (map2 sclL d m) [] = sclL (nth i d 0) (nth i m []).
Proof. induction d as [|x d IH]; intros [|r m] [|i] Hi L; cbn [length] in *; try lia; [reflexivity|]. cbn [map2 nth]. apply IH; lia. Qed.
Lemma scl_nth c v : forall i, nth i (sclL c v) 0 = c * nth i v 0.
Proof. induction v as [|x v IH]; intros [|i]; cbn; try ring. apply IH. Qed.
Lemma diag_nth d i : (i < length d)%nat -> nth i (nth i (diag d) []) 0 = nth i d 0.
Proof.
  intros H. unfold diag. rewrite map2_nth by (auto; apply id_square). rewrite scl_nth.
  unfold idL. rewrite (nth_indep _ [] (map (fun j => if Nat.eqb 0 j then 1 else 0) (seq 0 (length d)))) by now rewrite map_length, seq_length.
  rewrite (map_nth (fun i => map (fun j => if Nat.eqb i j then 1 else 0) (seq 0 (length d)))), seq_nth by exact H. cbv beta. cbn [plus].
  rewrite (nth_indep (map (fun j => if Nat.eqb i j then 1 else 0) (seq 0 (length d))) 0 (if Nat.eqb i 0 then 1 else 0)) by now rewrite map_length, seq_length.
  rewrite (map_nth (fun j => if Nat.eqb i j then 1 else 0)), seq_nth by exact H. cbn [plus]. rewrite Nat.eqb_refl. ring.
Qed.
Lemma diag_pinv_full : full_pinv diag_pinv.
Proof.
  intros n a eps Q (La & _) E. apply diag_pinv_val in E as (d & e & -> & -> & H & ->). rewrite diag_len in La. subst n.
  exists (diag (map dinv d)). split; [reflexivity|]. apply diag_full.
Qed.
Lemma diag_pinv_cutting : cutting_pinv diag_pinv.
Proof.
  intros n a eps Q (La & _) _ Pe E. apply diag_pinv_val in E as (d & e & Ee & -> & H & ->). injection Ee as <-. rewrite diag_len in La. subst n.
  exists (diag (map dinv d)). split; [reflexivity|]. split; [apply diag_full|]. change mulR with mulL.
  assert (E : forall v, length v = length d -> mulL (diag (map dinv d)) v = map2 Rmult (map dinv d) v) by (intros; apply mul_diag; now rewrite map_length).
  assert (Li : forall v, length v = length d -> length (map2 Rmult (map dinv d) v) = length d) by (intros; rewrite map2_length; rewrite map_length; congruence).
  split.
  - intros v L. rewrite (E v L), mul_diag by auto. clear E Li. revert v L. induction d as [|x d IH]; intros [|y v] L N; try discriminate; [exfalso; now apply N|].
    injection L as L. inversion H as [|x' d' Hx Hd]; subst. unfold dotL in *. cbn [length repeat map map2 sumR fold_right] in *.
    change (fold_right Rplus 0) with sumR in *.
    set (u := map2 Rmult (map dinv d) v) in *.
    assert (K : eps * sumR (map2 Rmult u u) <= sumR (map2 Rmult u (map2 Rmult d u)) /\ (u <> repeat 0 (length d) -> eps * sumR (map2 Rmult u u) < sumR (map2 Rmult u (map2 Rmult d u)))).
    { destruct (list_eq_dec Req_EM_T u (repeat 0 (length d))) as [Z|Z]; [|pose proof (IH Hd v L Z) as X; fold u in X; split; [apply Rlt_le; exact X|intros _; exact X]].
      split; [|contradiction]. rewrite Z. fold (dotL (repeat 0 (length d)) (repeat 0 (length d))). fold (dotL (repeat 0 (length d)) (map2 Rmult d (repeat 0 (length d)))). rewrite !dot_left0. lra. }
    destruct K as [K1 K2]. unfold dinv in *. destruct (Req_EM_T x 0) as [->|Hx0].
    + assert (u <> repeat 0 (length d)) as Nu by (intros Z; apply N; f_equal; [lra|exact Z]). specialize (K2 Nu). rewrite !Rmult_0_l. lra.
    + destruct Hx as [|Hx]; [contradiction|]. destruct (Req_EM_T y 0) as [->|Hy].
      * assert (u <> repeat 0 (length d)) as Nu by (intros Z; apply N; f_equal; [lra|exact Z]). specialize (K2 Nu). rewrite !Rmult_0_r. lra.
      * set (z := / x * y) in *. assert (Hz : 0 < z * z) by (assert (z <> 0) by (unfold z; apply Rmult_integral_contrapositive_currified; auto; now apply Rinv_neq_0_compat); nra). nra.
  - intros v L. rewrite (E v L), mul_diag by auto. clear E Li. revert v L. induction d as [|x d IH]; intros [|y v] L N; try discriminate; [cbn; lra|].
    injection L as L. inversion H as [|x' d' Hx Hd]; subst. unfold dotL in *. cbn [length repeat map map2 sumR fold_right] in *.
    change (fold_right Rplus 0) with sumR in *. injection N as N1 N2. specialize (IH Hd v L N2).
    destruct Hx as [->|Hx]; [nra|]. unfold dinv in N1. destruct (Req_EM_T x 0) as [->|Hx0]; [nra|].
    apply Rmult_integral in N1 as [N1| ->]; [|nra]. exfalso. now apply (Rinv_neq_0_compat x).
Qed.

(** a point to be moved along the axis to the origin, and a free point before it in the order *)
Definition axis_heap : heap xR := mkHeap [rp 3 0; rp 4 9] [] [] [] [FixPoint 0%nat (Fin 0) (Fin 0)].
Definition axis_sketch : sketch := mkSketch [(1%N, PPoint 0%nat)] 2%N [0%nat].
Definition axis_more : sketch := mkSketch [(0%N, PPoint 1%nat); (1%N, PPoint 0%nat)] 2%N [0%nat].
Lemma axis_facts : valid axis_heap axis_sketch /\ valid axis_heap axis_more /\ finite_data axis_heap axis_more /\ all_con_finite axis_heap axis_sketch /\
  with_spare axis_heap axis_sketch axis_more.
Proof.
  split; [vld|]. split; [vld|]. split; [|split; [|spare]].
  - intros c Hc. apply registered_sub in Hc. cbn [map snd s_prims axis_more In] in Hc. repeat (destruct Hc as [<-|Hc]; [repeat constructor|]); destruct Hc.
  - intros k [<-|[]]. split; [reflexivity|]. intros d Hd. simpl in Hd. repeat (destruct Hd as [<-|Hd]; [repeat constructor|]); destruct Hd.
Qed.
Definition axis_lm : lm_params xR := mkLM 1 (Fin 0) (Fin 1) (Fin 0) (Fin 1).
Definition axis_gn : gn_params xR := mkGN 1 (Fin 0) (Fin 1) (Fin 0).
Lemma axis_jac : exists i, get_jacobian axis_sketch axis_heap = (i, Val (FinM [[3; 0]])).
Proof. eexists. cbv -[IZR Rplus Rmult Ropp Rminus Rinv Rdiv]. refine (f_equal2 pair eq_refl _). repeat f_equal; lra. Qed.
Lemma axis_jac' : exists i, get_jacobian axis_more axis_heap = (i, Val (FinM [[0; 0; 3; 0]])).
Proof. eexists. cbv -[IZR Rplus Rmult Ropp Rminus Rinv Rdiv]. refine (f_equal2 pair eq_refl _). repeat f_equal; lra. Qed.
Lemma diag_accepts m d e : m = diag d -> Forall (clear_of e) d -> exists q, length q = length d /\ diag_pinv (FinM m) (Fin e) = PInv (FinM q).
Proof.
  intros -> H. unfold diag_pinv. change (FinM (diag d)) with (map (map Fin) (diag d)). rewrite vx_FinM.
  assert (Ed : map (fun i => nth i (nth i (diag d) []) 0) (seq 0 (length (diag d))) = d).
  { rewrite diag_len. apply nth_ext with (d := 0) (d' := 0); [now rewrite map_length, seq_length|]. rewrite map_length, seq_length. intros i Hi.
    rewrite (nth_indep (map (fun i => nth i (nth i (diag d) []) 0) (seq 0 (length d))) 0 (nth 0 (nth 0 (diag d) []) 0)) by now rewrite map_length, seq_length.
    rewrite (map_nth (fun i => nth i (nth i (diag d) []) 0)), seq_nth by exact Hi. cbv beta. cbn [plus].
    rewrite diag_nth by exact Hi. reflexivity. }
  rewrite Ed. destruct (list_eq_dec _ _ _) as [|N]; [|contradiction]. destruct (Forall_dec _ _ _) as [|N]; [|contradiction]. exists (diag (map dinv d)). split; [now rewrite diag_len, map_length|reflexivity].
Qed.
Lemma one_step_ok pinv (s : sketch) (h : heap xR) normal ml eps st i J x w q : fgt finf ml = true -> get_jacobian s h = (i, Val (FinM J)) ->
  get_data h s = FinV x -> get_loss_per_constraint h s = FinV w -> length x = get_n_dofs i s ->
  pinv (normal (length (FinV x)) (FinM J)) eps = PInv (FinM q) -> length q = length x ->
  exists h', nls_loop pinv s normal ml eps (Fin st) 1%nat 0%nat finf h = (h', Val (SOk 1%nat)).
Proof.
  intros Hm EJ Ex Ew Ln EP Lq. cbn [nls_loop]. rewrite Hm. cbn [negb]. cbv zeta. unfold mbind. rewrite EJ, Ex, Ew. unfold nls_step. rewrite EP.
  rewrite !FinV_length, mtrans_R, mmul_R, mvec_R, vmuls_R, vsub_R.
  destruct (set_data_ok s (FinV (subL x (sclL st (mulL (mmL (length w) q (trL (length x) J)) w)))) i) as (h' & E); [|apply finite_FinV|].
  - rewrite FinV_length, subL_length; [exact Ln|]. rewrite sclL_length, mulL_length. unfold mmL. rewrite map_length. congruence.
  - rewrite E. eexists. reflexivity.
Qed.
Lemma axis_lm_runs : (exists h', lm_run diag_pinv axis_sketch axis_lm axis_heap = (h', Val (SOk 1%nat))) /\ (exists h', lm_run diag_pinv axis_more axis_lm axis_heap = (h', Val (SOk 1%nat))).
Proof.
  assert (Hf : fgt (finf : xR) (Fin 0) = true) by reflexivity.
  destruct axis_facts as (_ & _ & _ & CF & _).
  assert (Ew : get_loss_per_constraint axis_heap axis_sketch = FinV [lossR (cfg_of axis_heap) axis_heap (getK axis_heap 0%nat)]).
  { unfold get_loss_per_constraint. cbn [s_cons axis_sketch map FinV]. rewrite ExactLemmas.loss_R by (apply CF; now left). reflexivity. }
  split.
  - destruct axis_jac as (i & EJ).
    destruct (diag_accepts (normL 1 2%nat [[3; 0]]) [10; 1] 0) as (q & Lq & EP).
    { cbv -[IZR Rplus Rmult Ropp Rminus Rinv Rdiv]. repeat match goal with |- cons _ _ = cons _ _ => apply (f_equal2 cons) | |- nil = nil => reflexivity end; lra. }
    { repeat (constructor; [right; lra|]). constructor. }
    eapply (one_step_ok diag_pinv axis_sketch axis_heap (lm_normal (Fin 1)) (Fin 0) (Fin 0) 1 i [[3; 0]] [3; 0] _ q Hf EJ eq_refl Ew); [rewrite (n_dofs_any i axis_heap); reflexivity | | exact Lq].
    rewrite <- EP. f_equal. exact (lm_normal_R axis_sketch axis_heap 1 _).
  - destruct axis_jac' as (i & EJ).
    destruct (diag_accepts (normL 1 4%nat [[0; 0; 3; 0]]) [1; 1; 10; 1] 0) as (q & Lq & EP).
    { cbv -[IZR Rplus Rmult Ropp Rminus Rinv Rdiv]. repeat match goal with |- cons _ _ = cons _ _ => apply (f_equal2 cons) | |- nil = nil => reflexivity end; lra. }
    { repeat (constructor; [right; lra|]). constructor. }
    eapply (one_step_ok diag_pinv axis_more axis_heap (lm_normal (Fin 1)) (Fin 0) (Fin 0) 1 i [[0; 0; 3; 0]] [4; 9; 3; 0] _ q Hf EJ eq_refl Ew); [rewrite (n_dofs_any i axis_heap); reflexivity | | exact Lq].
    rewrite <- EP. f_equal. exact (lm_normal_R axis_more axis_heap 1 _).
Qed.
Lemma axis_gn_runs : (exists h', gn_run diag_pinv axis_sketch axis_gn axis_heap = (h', Val (SOk 1%nat))) /\ (exists h', gn_run diag_pinv axis_more axis_gn axis_heap = (h', Val (SOk 1%nat))).
Proof.
  assert (Hf : fgt (finf : xR) (Fin 0) = true) by reflexivity.
  destruct axis_facts as (_ & _ & _ & CF & _).
  assert (Ew : get_loss_per_constraint axis_heap axis_sketch = FinV [lossR (cfg_of axis_heap) axis_heap (getK axis_heap 0%nat)]).
  { unfold get_loss_per_constraint. cbn [s_cons axis_sketch map FinV]. rewrite ExactLemmas.loss_R by (apply CF; now left). reflexivity. }
  split.
  - destruct axis_jac as (i & EJ).
    destruct (diag_accepts (mmL 2%nat (trL 2%nat [[3; 0]]) [[3; 0]]) [9; 0] 0) as (q & Lq & EP).
    { cbv -[IZR Rplus Rmult Ropp Rminus Rinv Rdiv]. repeat match goal with |- cons _ _ = cons _ _ => apply (f_equal2 cons) | |- nil = nil => reflexivity end; lra. }
    { constructor; [right; lra|]. constructor; [left; lra|constructor]. }
    eapply (one_step_ok diag_pinv axis_sketch axis_heap gn_normal (Fin 0) (Fin 0) 1 i [[3; 0]] [3; 0] _ q Hf EJ eq_refl Ew); [rewrite (n_dofs_any i axis_heap); reflexivity | | exact Lq].
    rewrite <- EP. f_equal. exact (gn_normal_R axis_sketch axis_heap _).
  - destruct axis_jac' as (i & EJ).
    destruct (diag_accepts (mmL 4%nat (trL 4%nat [[0; 0; 3; 0]]) [[0; 0; 3; 0]]) [0; 0; 9; 0] 0) as (q & Lq & EP).
    { cbv -[IZR Rplus Rmult Ropp Rminus Rinv Rdiv]. repeat match goal with |- cons _ _ = cons _ _ => apply (f_equal2 cons) | |- nil = nil => reflexivity end; lra. }
    { constructor; [left; lra|]. constructor; [left; lra|]. constructor; [right; lra|]. constructor; [left; lra|constructor]. }
    eapply (one_step_ok diag_pinv axis_more axis_heap gn_normal (Fin 0) (Fin 0) 1 i [[0; 0; 3; 0]] [4; 9; 3; 0] _ q Hf EJ eq_refl Ew); [rewrite (n_dofs_any i axis_heap); reflexivity | | exact Lq].
    rewrite <- EP. f_equal. exact (gn_normal_R axis_more axis_heap _).
Qed.
