(** * Transposes and products of exact matrices *)
From Coq Require Import List ZArith Arith Bool Lia Reals Lra.
From Verif Require Import Arith Vec Solve ArithR ExactSpec ExactLemmas GradLemmas LossLemmas RMat MotionSpec.
Import ListNotations.
Local Open Scope R_scope.

Definition trL (n : nat) (m : list (list R)) : list (list R) := map (fun j => map (fun r => nth j r 0) m) (seq 0 n).
Definition mmL (n : nat) (a b : list (list R)) : list (list R) := map (fun r => map (fun c => dotL r c) (trL n b)) a.
Definition rows (n : nat) (m : list (list R)) : Prop := List.Forall (fun r => length r = n) m.

Lemma nth_FinV j r : nth j (FinV r) f0 = Fin (nth j r 0).
Proof. unfold FinV. rewrite f0_R. apply map_nth. Qed.
Lemma mtrans_R n m : mtrans n (FinM m) = FinM (trL n m).
Proof.
  unfold mtrans, FinM, trL, FinV. rewrite map_map. apply map_ext. intros j. unfold mcol. rewrite !map_map.
  apply map_ext. intros r. apply nth_FinV.
Qed.
Lemma mmul_R n a b : mmul n (FinM a) (FinM b) = FinM (mmL n a b).
Proof.
  unfold mmul, mmL. rewrite mtrans_R. unfold FinM at 2. rewrite map_map. unfold FinM at 2. rewrite map_map.
  apply map_ext. intros r. unfold FinM. rewrite map_map. unfold FinV at 3. rewrite map_map. apply map_ext. intros c. apply dot1_R.
Qed.
Lemma madd_R a : forall b, madd (FinM a) (FinM b) = FinM (map2 addL a b).
Proof. induction a as [|r a IH]; intros [|t b]; auto. unfold madd in *. simpl. f_equal; [apply vadd_R | apply IH]. Qed.
Lemma mscale_R c a : mscale (Fin c) (FinM a) = FinM (map (sclL c) a).
Proof. unfold mscale, FinM. rewrite !map_map. apply map_ext. intros r. apply vscale_R. Qed.
Lemma vmuls_R u a : vmuls (FinV u) (Fin a) = FinV (sclL a u).
Proof. unfold vmuls, FinV, sclL. rewrite !map_map. apply map_ext. intros x. rewrite mul_R. f_equal. ring. Qed.

Lemma trL_length n m : length (trL n m) = n.
Proof. unfold trL. now rewrite map_length, seq_length. Qed.
Lemma trL_rows n m : rows (length m) (trL n m).
Proof. unfold rows, trL. apply List.Forall_forall. intros r Hr. apply in_map_iff in Hr as (j & <- & _). apply map_length. Qed.
Lemma map_nth_seq (r : list R) : map (fun j => nth j r 0) (seq 0 (length r)) = r.
Proof.
  apply nth_ext0; [now rewrite map_length, seq_length|]. intros i Hi. rewrite map_length, seq_length in Hi.
  rewrite (nth_indep _ 0 (nth 0%nat r 0)) by (now rewrite map_length, seq_length).
  rewrite (map_nth (fun j => nth j r 0) (seq 0 (length r)) 0%nat i). now rewrite seq_nth.
Qed.
Lemma dotL_nil_l v : dotL [] v = 0. Proof. reflexivity. Qed.
Lemma tr_nil n w : dotL w w = dotL w w -> mulL (trL n []) w = repeat 0 n.
Proof.
  intros _. unfold mulL, trL. rewrite map_map. cbn [map]. transitivity (map (fun _ => 0) (seq 0 n)); [apply map_ext; reflexivity|].
  generalize 0%nat. induction n as [|n IH]; intros k; simpl; auto. now rewrite IH.
Qed.
Lemma tr_cons n r m a w : length r = n -> mulL (trL n (r :: m)) (a :: w) = addL (sclL a r) (mulL (trL n m) w).
Proof.
  intros L. assert (E : sclL a r = map (fun j => a * nth j r 0) (seq 0 n)).
  { rewrite <- (map_nth_seq r) at 1. rewrite L. unfold sclL. now rewrite map_map. }
  rewrite E. clear. unfold mulL, trL, addL. rewrite !map_map.
  induction (seq 0 n) as [|j l IH]; [reflexivity|]. simpl. f_equal; [unfold dotL; simpl; ring | exact IH].
Qed.
Lemma dot_repeat0 x n : dotL x (repeat 0 n) = 0.
Proof. apply dot_zeros. intros y Hy. now apply repeat_spec in Hy. Qed.
Lemma mul_zeros m z : (forall x, In x z -> x = 0) -> mulL m z = repeat 0 (length m).
Proof. intros H. induction m as [|r m IH]; simpl; auto. rewrite IH. f_equal. now apply dot_zeros. Qed.
Lemma scl_zeros b (p : list R) : b = 0 \/ (forall x, In x p -> x = 0) -> sclL b p = repeat 0 (length p).
Proof.
  intros H. unfold sclL. induction p as [|x p IH]; simpl; auto. rewrite IH by (destruct H; [now left | right; intros; apply H; now right]).
  f_equal. destruct H as [->|H]; [|rewrite (H x) by now left]; ring.
Qed.
Lemma add_zeros n : addL (repeat 0 n) (repeat 0 n) = repeat 0 n.
Proof. unfold addL. induction n as [|n IH]; simpl; auto. rewrite IH. f_equal. ring. Qed.
Lemma in_repeat0 n x : In x (repeat 0 n) -> x = 0. Proof. apply repeat_spec. Qed.
(** the transpose is the adjoint *)
Lemma adjoint n x : length x = n -> forall m w, rows n m -> length w = length m ->
  dotL x (mulL (trL n m) w) = dotL (mulL m x) w.
Proof.
  intros Lx. induction m as [|r m IH]; intros w Hr Lw.
  - rewrite tr_nil by auto. rewrite dot_repeat0. reflexivity.
  - destruct w as [|a w]; [discriminate|]. inversion Hr; subst. simpl in Lw.
    rewrite tr_cons by auto. rewrite dot_add_r by (rewrite sclL_length, mulL_length, trL_length; auto).
    rewrite IH by (auto || lia). rewrite dot_scl_r. unfold dotL at 3. simpl. fold (dotL (mulL m x) w). rewrite (dot_comm x r). ring.
Qed.
Lemma mm_mul n a b v : rows n b -> length v = n -> rows (length b) a -> mulL (mmL n a b) v = mulL a (mulL b v).
Proof.
  intros Rb Lv Ra. unfold mulL at 1 2, mmL. rewrite map_map. apply map_ext_in. intros r Hr.
  assert (Lr : length r = length b) by (unfold rows in Ra; rewrite List.Forall_forall in Ra; auto).
  replace (map (fun c => dotL r c) (trL n b)) with (mulL (trL n b) r) by (unfold mulL; apply map_ext; intros; apply dot_comm).
  rewrite dot_comm, adjoint by auto. apply dot_comm.
Qed.
Lemma mm_square n a b : length a = n -> square n (mmL n a b).
Proof.
  intros La. split; [unfold mmL; now rewrite map_length|]. unfold mmL. apply List.Forall_forall. intros r Hr.
  apply in_map_iff in Hr as (t & <- & _). rewrite map_length. apply trL_length.
Qed.
Lemma map2_add_mul n v : length v = n -> forall a b, rows n a -> rows n b ->
  mulL (map2 addL a b) v = addL (mulL a v) (mulL b v).
Proof.
  intros Lv. induction a as [|r a IH]; intros [|t b] Ra Rb; auto. inversion Ra; inversion Rb; subst. simpl. rewrite IH by auto.
  rewrite (dot_add_l r t v) by congruence. reflexivity.
Qed.
Lemma scl_mul c a v : mulL (map (sclL c) a) v = sclL c (mulL a v).
Proof. unfold mulL, sclL. rewrite !map_map. apply map_ext. intros r. apply dot_scl_l. Qed.
Lemma map2_add_rows n a : forall b, rows n a -> rows n b -> rows n (map2 addL a b).
Proof.
  induction a as [|r a IH]; intros [|t b] Ra Rb; try constructor; inversion Ra; inversion Rb; subst; [lens | now apply IH].
Qed.
Lemma scl_rows n c a : rows n a -> rows n (map (sclL c) a).
Proof. unfold rows. rewrite !List.Forall_forall. intros H r Hr. apply in_map_iff in Hr as (t & <- & Ht). rewrite sclL_length. auto. Qed.

(** ** the normal matrix J^T J + b I *)
Definition normL (b : R) (n : nat) (J : list (list R)) : list (list R) :=
  map2 addL (mmL n (trL n J) J) (map (sclL b) (idL n)).
Section N.
Variables (n : nat) (J : list (list R)).
Hypothesis RJ : rows n J.
Lemma jtj_mul v : length v = n -> mulL (mmL n (trL n J) J) v = mulL (trL n J) (mulL J v).
Proof. intros L. apply mm_mul; auto. apply trL_rows. Qed.
Lemma jtj_sym : symmetric n (mmL n (trL n J) J).
Proof.
  destruct (mm_square n (trL n J) J (trL_length n J)) as [S1 S2]. split; auto. split; auto.
  intros x v Lx Lv. change mulR with mulL. rewrite !jtj_mul by auto. rewrite !adjoint by (auto; apply mulL_length). apply dot_comm.
Qed.
Lemma norm_mul b v : length v = n -> mulL (normL b n J) v = addL (mulL (trL n J) (mulL J v)) (sclL b v).
Proof.
  intros L. unfold normL. destruct (mm_square n (trL n J) J (trL_length n J)) as [_ S2]. destruct (id_square n) as [_ I2].
  rewrite (map2_add_mul n v L) by (auto; now apply scl_rows). rewrite jtj_mul, scl_mul, id_mul by auto. reflexivity.
Qed.
Lemma norm_sym b : symmetric n (normL b n J).
Proof.
  destruct (mm_square n (trL n J) J (trL_length n J)) as [S1 S2]. destruct (id_square n) as [I1 I2].
  split; [unfold normL; rewrite map2_length; [auto | rewrite map_length; congruence]|].
  split; [unfold normL; apply map2_add_rows; [auto | now apply scl_rows]|].
  intros x v Lx Lv. change mulR with mulL. rewrite !norm_mul by auto.
  rewrite !dot_add_r by (rewrite mulL_length, trL_length, sclL_length; auto).
  rewrite !adjoint by (auto; apply mulL_length). rewrite !dot_scl_r, (dot_comm v x), (dot_comm (mulL J v)). reflexivity.
Qed.

(** ** a truncated inverse of the normal matrix *)
Section Q.
Variables (b : R) (q : list (list R)).
Hypothesis TQ : truncated_inverse n (normL b n J) q.
Lemma q_len v : length (mulL q v) = n.
Proof. rewrite mulL_length. apply TQ. Qed.
(** directions no residual depends on are not used *)
Lemma q_kernel u w : length u = n -> length w = length J -> mulL J u = repeat 0 (length J) ->
  dotL u (mulL q (mulL (trL n J) w)) = 0.
Proof.
  intros Lu Lw Hu. destruct TQ as ((_ & _ & Sy) & Q1 & Q2). change mulR with mulL in *.
  set (g := mulL (trL n J) w). assert (Lg : length g = n) by (unfold g; rewrite mulL_length; apply trL_length).
  rewrite Sy by auto.
  (* a u = b u *)
  assert (Au : mulL (normL b n J) u = sclL b u).
  { rewrite norm_mul by auto. rewrite Hu. apply nth_ext0; [rewrite addL_length; rewrite mulL_length, trL_length, ?sclL_length; auto|].
    intros i Hi. unfold addL, mulL, trL, sclL. rewrite !map_map.
    assert (Z : map (fun x => dotL (map (fun r : list R => nth x r 0) J) (repeat 0 (length J))) (seq 0 n) = repeat 0 n).
    { clear. generalize 0%nat. induction n as [|k IH]; intros z; simpl; auto. rewrite IH, dot_repeat0. reflexivity. }
    rewrite Z. subst n. clear. revert i. induction u as [|x u' IH]; intros i; simpl; auto. destruct i; [ring | apply IH]. }
  set (y := mulL q u). assert (Ly : length y = n) by apply q_len.
  assert (Ay : mulL (normL b n J) y = sclL b y).
  { unfold y. rewrite <- Q2 by auto. rewrite Au. apply mul_scl. }
  rewrite norm_mul in Ay by auto.
  assert (Z : dotL (mulL J y) (mulL J y) = 0).
  { rewrite <- (adjoint n y Ly J (mulL J y)) by (auto; apply mulL_length).
    assert (E : dotL y (addL (mulL (trL n J) (mulL J y)) (sclL b y)) = dotL y (sclL b y)) by now rewrite Ay.
    rewrite dot_add_r in E by (rewrite mulL_length, trL_length, sclL_length; auto). lra. }
  rewrite dot_comm. unfold g. rewrite adjoint by auto.
  rewrite dot_comm. apply dot_zeros. now apply dot_self_zero.
Qed.
(** the step is a descent direction of half the sum of squares *)
Lemma q_descent w : 0 <= b -> length w = length J ->
  let p := mulL q (mulL (trL n J) w) in
  dotL w (mulL J p) = dotL (mulL J p) (mulL J p) + b * dotL p p /\
  (dotL w (mulL J p) = 0 -> p = repeat 0 n).
Proof.
  intros Hb Lw p. destruct TQ as ((_ & _ & Sy) & Q1 & Q2). change mulR with mulL in *.
  set (g := mulL (trL n J) w) in *. assert (Lg : length g = n) by (unfold g; rewrite mulL_length; apply trL_length).
  assert (Lp : length p = n) by apply q_len.
  assert (E : dotL w (mulL J p) = dotL (mulL J p) (mulL J p) + b * dotL p p).
  { rewrite dot_comm, <- (adjoint n p Lp) by auto. fold g.
    (* p.g = g.q g = g.q a q g = p.a p *)
    rewrite dot_comm. unfold p at 1. rewrite <- (Q1 g Lg). fold p.
    rewrite Sy by (auto; rewrite mulL_length; apply norm_sym). fold p. rewrite dot_comm.
    rewrite norm_mul by auto. rewrite dot_add_r by (rewrite mulL_length, trL_length, sclL_length; auto).
    rewrite adjoint by (auto; apply mulL_length). rewrite dot_scl_r. reflexivity. }
  split; auto. intros Z. rewrite E in Z.
  assert (N1 := dot_self_nonneg (mulL J p)). assert (N2 := dot_self_nonneg p).
  assert (Z1 : dotL (mulL J p) (mulL J p) = 0) by nra. assert (Z2 : b * dotL p p = 0) by nra.
  assert (A0 : mulL (normL b n J) p = repeat 0 n).
  { rewrite norm_mul by auto.
    assert (X : mulL (trL n J) (mulL J p) = repeat 0 n).
    { rewrite mul_zeros by now apply dot_self_zero. now rewrite trL_length. }
    assert (Y : sclL b p = repeat 0 n).
    { rewrite <- Lp. apply scl_zeros. destruct (Req_dec b 0) as [->|Nb]; [now left | right].
      apply dot_self_zero. destruct (Rmult_integral _ _ Z2); tauto. }
    rewrite X, Y. apply add_zeros. }
  unfold p at 1. rewrite <- (Q1 g Lg). fold p. rewrite A0. rewrite mul_zeros by apply in_repeat0. f_equal. apply TQ.
Qed.
End Q.
End N.
