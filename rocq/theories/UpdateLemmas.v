(** * The BFGS update in exact arithmetic is the textbook one (lemma for C28) *)
From Coq Require Import List Arith Lia Reals Lra.
From Verif Require Import Arith Vec Prim Cons Sketch Solve Spec ArithR ExactSpec ExactLemmas RMat ExactRun MotionSpec.
Import ListNotations.
Local Open Scope R_scope.

Lemma C28_update_lemma n M s y : symmetric n M -> length s = n -> length y = n ->
  exists c M', c <> 0 /\
    (/ 10000000000000000 <= Rabs (dotL s y) -> c = dotL s y) /\
    (Rabs (dotL s y) < / 10000000000000000 -> c = dotL s y + / 1000000) /\
    bfgs_update (map (map Fin) M) (map Fin s) (map Fin y) (bfgs_sdoty (map Fin s) (map Fin y)) = map (map Fin) M' /\
    symmetric n M' /\
    forall x v, length x = n -> length v = n ->
      dotL x (mulR M' v) =
        dotL (map2 Rminus x (map (Rmult (dotL s x / c)) y)) (mulR M (map2 Rminus v (map (Rmult (dotL s v / c)) y)))
        + dotL s x * dotL s v / c.
Proof.
  intros (Lm & Fm & Sy) Ls Ly.
  assert (Sq : square n M) by (split; auto).
  set (c := if Rlt_dec (Rabs (dotL s y)) (/ 10000000000000000) then dotL s y + / 1000000 else dotL s y).
  assert (Nc : c <> 0) by apply sdoty_nonzero. assert (Ec : c = c) by reflexivity. revert Ec. unfold c at 2. clearbody c. intros Ec.
  exists c, (updL M s y c).
  assert (B : forall x v, length x = n -> length v = n -> dotL x (mulR (updL M s y c) v) =
        dotL (map2 Rminus x (map (Rmult (dotL s x / c)) y)) (mulR M (map2 Rminus v (map (Rmult (dotL s v / c)) y)))
        + dotL s x * dotL s v / c).
  { intros x v Lx Lv. change (mulR (updL M s y c) v) with (mulL (updL M s y c) v). change (mulR M) with (mulL M).
    fold (bil (updL M s y c) x v). rewrite (upd_bil n) by auto.
    assert (Ey : map2 Rminus v (map (Rmult (dotL s v / c)) y) = addL v (sclL (- (dotL s v / c)) y)).
    { unfold addL, sclL. generalize (dotL s v / c). clear. intros k. revert y. induction v as [|a v IH]; intros [|b y]; simpl; auto. f_equal; [ring | apply IH]. }
    rewrite Ey. rewrite (mul_add n) by (auto; lens). rewrite mul_scl.
    fold (subL x (map (Rmult (dotL s x / c)) y)). fold (sclL (dotL s x / c) y).
    rewrite dot_sub_l by lens. rewrite !dot_add_r by lens. rewrite !dot_scl_l, !dot_scl_r. unfold bil.
    assert (E1 : dotL (mulL M y) v = dotL y (mulL M v)) by (rewrite dot_comm; apply (Sy v y); auto).
    rewrite E1, (dot_comm x s). field. auto. }
  split; [auto|]. split; [intros G; rewrite Ec; destruct (Rlt_dec _ _); auto; lra|].
  split; [intros G; rewrite Ec; destruct (Rlt_dec _ _); auto; lra|].
  split. { fold (FinV s) (FinV y) (FinM M). rewrite sdoty_R, <- Ec. now apply bfgs_update_R. }
  split; [|exact B].
  destruct (upd_square n M s y c Sq Ls) as [U1 U2].
  split; [exact U1|]. split; [exact U2|]. intros x v Lx Lv. rewrite !B by auto.
  rewrite (Sy _ _) by (rewrite map2_min, map_length; lia). unfold Rdiv. ring.
Qed.
