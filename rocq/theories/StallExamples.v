(** * A pseudo-inverse of exact arithmetic that cuts at a tolerance, for the examples of C82 and C83 *)
From Coq Require Import List ZArith NArith Arith Bool Lia Reals Lra ClassicalDedekindReals.
From Verif Require Import Arith Vec Prim Cons Sketch Solve Spec ArithR ExactSpec ExactLemmas RMat MotionSpec NlsMat MotionExamples StallSpec LinearLemmas.
Import ListNotations.
Local Open Scope R_scope.

Definition small_form (e : R) (a : list (list R)) : Prop := forall w, length w = length a -> dotL w (mulR a w) <= e * dotL w w.
(** drops everything of a matrix without eigenvalues above the tolerance, inverts multiples of projections whose factor
    is above it, and gives up on other matrices *)
Definition cut_pinv (m : mat xR) (eps : xR) : pinv_res (mat xR) :=
  let a := map (map vx) m in let t := sumR (map (fun r => dotL r r) a) / trace a in
  match eps with
  | Fin e =>
      if sig_not_dec (small_form e a) then PInv (map (map (fun _ => Fin 0)) a)
      else if list_eq_dec (list_eq_dec Req_EM_T) (mmL (length a) a a) (map (map (Rmult t)) a)
      then if Rlt_dec e t then PInv (map (map (fun x => Fin (x / (t * t)))) a) else PErr
      else PErr
  | _ => PErr
  end.
Lemma small_dec e a : ~ ~ small_form e a -> small_form e a.
Proof. intros H w L. apply Rnot_lt_le. intros C. apply H. intros S. specialize (S w L). lra. Qed.
Lemma proj_mul n a t : symmetric n a -> mmL (length a) a a = map (map (Rmult t)) a -> forall v, length v = n -> mulR a (mulR a v) = map (Rmult t) (mulR a v).
Proof.
  intros (La & Ra & _) E v Lv. rewrite La in E. rewrite <- mul_scale2, <- E. symmetry. apply (mm_mul n a a v); auto. unfold rows. now rewrite La.
Qed.
Lemma zero_eq k w : k <> 0 -> map (Rmult k) w = repeat 0 (length w) -> w = repeat 0 (length w).
Proof.
  intros Hk. induction w as [|x w IH]; simpl; auto. intros E. injection E as E1 E2. f_equal; auto. apply Rmult_integral in E1 as [|]; auto. easy.
Qed.
Lemma cut_pinv_cutting : cutting_pinv cut_pinv.
Proof.
  intros n a eps Q Sy Ps Pe. assert (Sy' := Sy). destruct Sy' as (La & Ra & Ss). unfold cut_pinv. rewrite vx_FinM.
  destruct (sig_not_dec _) as [Hs|_].
  - intros [= <-]. apply small_dec in Hs. exists (map (map (fun _ => 0)) a). split; [rewrite map_map; apply map_ext; intros r; now rewrite map_map|].
    split; [now apply zero_inverse|]. split.
    + intros v Lv H. exfalso. apply H. now rewrite mul_zero, La.
    + intros w Lw _. apply Hs. congruence.
  - set (t := sumR _ / _). destruct (list_eq_dec _ _ _) as [E|]; [|discriminate]. destruct (Rlt_dec eps t) as [Ht|]; [|discriminate]. intros [= <-].
    assert (Pt : 0 < t) by lra. assert (Hp := proj_mul n a t Sy E).
    exists (map (map (fun x => x / (t * t))) a). split; [rewrite map_map; apply map_ext; intros r; now rewrite map_map|].
    split; [apply line_inverse; auto; lra|]. split.
    + intros v Lv H. rewrite mul_scale in *. set (w := mulR a v) in *. set (u := map (Rmult (/ (t * t))) w) in *.
      assert (Lw : length w = n) by (unfold w; rewrite mulR_length; auto). assert (Lu : length u = n) by (unfold u; now rewrite map_length).
      assert (Eu : mulR a u = map (Rmult t) u). { unfold u. rewrite mulR_scl. unfold w. rewrite (Hp v Lv). rewrite !map_map. apply map_ext. intros x. ring. }
      rewrite Eu. change (map (Rmult t) u) with (sclL t u). rewrite dot_scl_r.
      assert (N : 0 < dotL u u).
      { destruct (dot_self_nonneg u) as [|Z]; auto. exfalso. apply H. symmetry in Z. pose proof (dot_self_zero _ Z) as X. clear - X Lu. rewrite <- Lu. clear Lu.
        induction u as [|x u IH]; simpl; auto. rewrite (X x (or_introl eq_refl)). f_equal. apply IH. intros y Hy. apply X. now right. }
      apply Rmult_lt_compat_r; auto.
    + intros w Lw H. rewrite mul_scale in H. assert (Z : mulR a w = repeat 0 n).
      { rewrite <- La, <- (mulR_length a w). apply (zero_eq (/ (t * t))); [apply Rinv_neq_0_compat; nra|]. now rewrite mulR_length, La. }
      rewrite Z, dot_repeat0. apply Rmult_le_pos; auto. apply dot_self_nonneg.
Qed.
(** it accepts the multiples of projections and the matrices without large eigenvalues *)
Lemma cut_small_form e a : small_form e a -> exists Q, cut_pinv (map (map Fin) a) (Fin e) = PInv Q.
Proof. intros H. unfold cut_pinv. rewrite vx_FinM. destruct (sig_not_dec _) as [|C]; [eauto|easy]. Qed.
Lemma proj_bound n a t : symmetric n a -> (forall v, length v = n -> 0 <= dotL v (mulR a v)) -> 0 < t -> mmL (length a) a a = map (map (Rmult t)) a ->
  forall w, length w = n -> dotL w (mulR a w) <= t * dotL w w.
Proof.
  intros Sy Ps Pt E w Lw. assert (Hp := proj_mul n a t Sy E w Lw). destruct Sy as (La & Ra & Ss).
  assert (Lm : length (mulR a w) = n) by (rewrite mulR_length; auto).
  assert (N : dotL (mulR a w) (mulR a w) = t * dotL w (mulR a w)).
  { rewrite (Ss _ w Lm Lw), Hp. change (map (Rmult t) (mulR a w)) with (sclL t (mulR a w)). now rewrite dot_scl_r. }
  pose proof (dotL_cauchy w (mulR a w) ltac:(congruence)) as C. rewrite N in C. specialize (Ps w Lw).
  set (y := dotL w (mulR a w)) in *. pose proof (dot_self_nonneg w) as Nw. set (x := dotL w w) in *. clearbody x y.
  destruct (Req_dec y 0) as [->|Hy]; [nra|]. apply (Rmult_le_reg_r y); lra.
Qed.
Lemma cut_proj n e a t : symmetric n a -> (forall v, length v = n -> 0 <= dotL v (mulR a v)) -> 0 < t -> mmL (length a) a a = map (map (Rmult t)) a ->
  sumR (map (fun r => dotL r r) a) / trace a = t -> exists Q, cut_pinv (map (map Fin) a) (Fin e) = PInv Q.
Proof.
  intros Sy Ps Pt E Et. destruct (Rlt_dec e t) as [L|L].
  - unfold cut_pinv. rewrite vx_FinM, Et. destruct (sig_not_dec _); [eauto|]. destruct (list_eq_dec _ _ _); [|easy]. destruct (Rlt_dec e t); [eauto|easy].
  - apply cut_small_form. intros w Lw. destruct (Sy) as (La & _). pose proof (proj_bound n a t Sy Ps Pt E w ltac:(congruence)). pose proof (dot_self_nonneg w). nra.
Qed.
