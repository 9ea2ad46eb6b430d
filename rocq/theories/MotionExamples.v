(** * A pseudo-inverse of exact arithmetic for the examples of C31, C62 and C63 *)
From Coq Require Import List ZArith NArith Arith Bool Lia Reals Lra.
From Verif Require Import Arith Vec Prim Cons Sketch Solve Spec ArithR ExactSpec ExactLemmas RMat MotionSpec NlsMat.
Import ListNotations.
Local Open Scope R_scope.

Definition trace (a : list (list R)) : R := sumR (map (fun i => nth i (nth i a []) 0) (seq 0 (length a))).
(** inverts multiples of projections onto a line and drops everything of other matrices *)
Definition line_pinv (m : mat xR) (eps : xR) : pinv_res (mat xR) :=
  let a := map (map vx) m in let t := trace a in
  if Req_EM_T t 0 then PInv (map (map (fun _ => Fin 0)) a)
  else if list_eq_dec (list_eq_dec Req_EM_T) (mmL (length a) a a) (map (map (Rmult t)) a)
  then PInv (map (map (fun x => Fin (x / (t * t)))) a)
  else PInv (map (map (fun _ => Fin 0)) a).

Lemma vx_FinM a : map (map vx) (map (map Fin) a) = a.
Proof. rewrite map_map. rewrite <- (map_id a) at 2. apply map_ext. intros r. rewrite map_map. apply map_id. Qed.
Lemma mul_scale k a v : mulR (map (map (fun x => x / k)) a) v = map (Rmult (/ k)) (mulR a v).
Proof.
  unfold mulR. rewrite !map_map. apply map_ext. intros r. unfold dotL. revert v.
  induction r as [|x r IH]; intros [|y v]; simpl; try ring. unfold dotL in IH. simpl in IH. rewrite IH. unfold Rdiv. ring.
Qed.
Lemma mulR_scl a k v : mulR a (map (Rmult k) v) = map (Rmult k) (mulR a v).
Proof. apply (mul_scl a k v). Qed.
Lemma mulR_length a v : length (mulR a v) = length a. Proof. apply map_length. Qed.
Lemma sym_scale n k a : symmetric n a -> symmetric n (map (map (fun x => x / k)) a).
Proof.
  intros (L & Hr & S). split; [now rewrite map_length|]. split.
  - rewrite List.Forall_forall in *. intros r Hi. apply in_map_iff in Hi as (r' & <- & Hi). rewrite map_length. auto.
  - intros x v Lx Lv. rewrite !mul_scale. unfold dotL at 1 2. fold (sclL (/ k) (mulR a v)) (sclL (/ k) (mulR a x)). fold (dotL x (sclL (/ k) (mulR a v))) (dotL v (sclL (/ k) (mulR a x))). rewrite !dot_scl_r. f_equal. auto.
Qed.
Lemma zero_div (a : list (list R)) : map (map (fun _ : R => 0)) a = map (map (fun x => x / 0)) (map (map (fun _ => 0)) a).
Proof. rewrite map_map. apply map_ext. intros r. rewrite map_map. apply map_ext. intros x. unfold Rdiv. ring. Qed.
Lemma mul_zero a v : mulR (map (map (fun _ : R => 0)) a) v = repeat 0 (length a).
Proof.
  unfold mulR. induction a as [|r a IH]; simpl; auto. rewrite IH. f_equal. unfold dotL. clear. revert v.
  induction r as [|x r IH]; intros [|y v]; simpl; auto. rewrite IH. ring.
Qed.
Lemma mulR_zeros m n : mulR m (repeat 0 n) = repeat 0 (length m).
Proof. apply (mul_zeros m). intros x. apply repeat_spec. Qed.

Lemma mul_scale2 k a v : mulR (map (map (Rmult k)) a) v = map (Rmult k) (mulR a v).
Proof.
  unfold mulR. rewrite !map_map. apply map_ext. intros r. unfold dotL. revert v.
  induction r as [|x r IH]; intros [|y v]; simpl; try ring. unfold dotL in IH. simpl in IH. rewrite IH. ring.
Qed.
Lemma zero_inverse n a : symmetric n a -> truncated_inverse n a (map (map (fun _ => 0)) a).
Proof.
  intros (La & Ra & Sa). split; [split; [now rewrite map_length|split]|split].
  - rewrite List.Forall_forall in *. intros r Hi. apply in_map_iff in Hi as (r' & <- & Hi). rewrite map_length. auto.
  - intros x v Lx Lv. rewrite !mul_zero. now rewrite !dot_repeat0.
  - intros v Lv. now rewrite !mul_zero.
  - intros v Lv. rewrite !mul_zero. now rewrite mulR_zeros.
Qed.
Lemma line_inverse n a t : symmetric n a -> t <> 0 -> mmL (length a) a a = map (map (Rmult t)) a ->
  truncated_inverse n a (map (map (fun x => x / (t * t))) a).
Proof.
  intros Sy Ht E. destruct (Sy) as (La & Ra & _). rewrite La in E.
  assert (Hp : forall v, length v = n -> mulR a (mulR a v) = map (Rmult t) (mulR a v)).
  { intros v Lv. rewrite <- mul_scale2, <- E. symmetry. apply (mm_mul n a a v); auto. unfold rows. now rewrite La. }
  split; [now apply sym_scale|]. split; intros v Lv.
  - rewrite !mul_scale. rewrite !mulR_scl. rewrite (Hp v Lv). rewrite mulR_scl. rewrite (Hp v Lv). rewrite !map_map.
    apply map_ext. intros x. field. auto.
  - rewrite !mul_scale. now rewrite mulR_scl.
Qed.
Lemma line_pinv_exact : exact_pinv line_pinv.
Proof.
  intros n a eps Q Sy. unfold line_pinv. rewrite vx_FinM.
  assert (Z : forall Q', PInv (map (map (fun _ : R => Fin 0)) a) = PInv Q' -> exists q, Q' = map (map Fin) q /\ truncated_inverse n a q).
  { intros Q' [= <-]. exists (map (map (fun _ => 0)) a). split; [|now apply zero_inverse].
    rewrite map_map. apply map_ext. intros r. now rewrite map_map. }
  destruct (Req_EM_T _ 0) as [Ht|Ht]; [apply Z|].
  destruct (list_eq_dec _ _ _) as [E|E]; [|apply Z]. intros [= <-].
  exists (map (map (fun x => x / (trace a * trace a))) a). split; [|now apply line_inverse].
  rewrite map_map. apply map_ext. intros r. now rewrite map_map.
Qed.
Lemma line_pinv_val a eps : trace a <> 0 -> mmL (length a) a a = map (map (Rmult (trace a))) a ->
  line_pinv (map (map Fin) a) eps = PInv (map (map (fun x => Fin (x / (trace a * trace a)))) a).
Proof.
  intros Ht E. unfold line_pinv. rewrite vx_FinM. destruct (Req_EM_T _ 0); [easy|].
  destruct (list_eq_dec _ _ _); [reflexivity | easy].
Qed.
