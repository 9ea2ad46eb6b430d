(** * A pseudo-inverse that does not depend on coordinates, and two congruent sketches (examples for C66 and C67) *)
From Coq Require Import List ZArith NArith Arith Bool Lia Permutation Reals Lra.
From Verif Require Import Arith Vec Prim Cons Sketch Solve Spec ArithR ExactSpec ExactLemmas GradLemmas LossLemmas RMat
  MotionSpec NlsMat MotionLemmas MotionExamples SymSpec.
Import ListNotations.
Local Open Scope R_scope.

(** inverts matrices that are multiples of a projection *)
Definition factor (a : list (list R)) : option R :=
  match find (fun p => if Req_EM_T (fst p) 0 then false else true) (combine (concat a) (concat (mmL (length a) a a))) with
  | Some (x, y) => Some (y / x)
  | None => None
  end.
Definition flat_pinv (m : mat xR) (eps : xR) : pinv_res (mat xR) :=
  let a := map (map vx) m in
  match factor a with
  | None => PInv (map (map (fun _ => Fin 0)) a)
  | Some c =>
      if Req_EM_T c 0 then PErr
      else if list_eq_dec (list_eq_dec Req_EM_T) (mmL (length a) a a) (map (map (Rmult c)) a)
      then PInv (map (map (fun x => Fin (x / (c * c)))) a)
      else PErr
  end.

Lemma dot_zeros_l : forall r v, (forall x, In x r -> x = 0) -> dotL r v = 0.
Proof. intros r v H. rewrite dot_comm. now apply dot_zeros. Qed.
Section P.
Variable n : nat.
Definition sq_mat (a : list (list R)) : Prop := length a = n /\ List.Forall (fun r => length r = n) a.
Lemma mat_ext a b : sq_mat a -> sq_mat b -> (forall v, length v = n -> mulR a v = mulR b v) -> a = b.
Proof.
  intros [La Ra] [Lb Rb] H. apply (nth_ext _ _ [] []); [congruence|]. intros i Hi. rewrite La in Hi.
  rewrite List.Forall_forall in Ra, Rb.
  assert (L1 : length (nth i a []) = n) by (apply Ra, nth_In; lia). assert (L2 : length (nth i b []) = n) by (apply Rb, nth_In; lia).
  apply (dot_ext n); auto. intros e Le. specialize (H e Le). apply (f_equal (fun l => nth i l 0)) in H. unfold mulR in H.
  rewrite (nth_indep _ 0 (dotL [] e)) in H by (rewrite map_length; lia). rewrite (map_nth (fun r => dotL r e)) in H.
  rewrite (nth_indep (map (fun r => dotL r e) b) 0 (dotL [] e)) in H by (rewrite map_length; lia).
  now rewrite (map_nth (fun r => dotL r e)) in H.
Qed.
Lemma mm_sq a : sq_mat a -> sq_mat (mmL n a a).
Proof. intros [L Rr]. apply mm_square; auto. Qed.
Lemma scl_sq c a : sq_mat a -> sq_mat (map (map (Rmult c)) a).
Proof.
  intros [L Rr]. split; [now rewrite map_length|]. rewrite List.Forall_forall in *. intros r Hr.
  apply in_map_iff in Hr as (x & <- & Hx). rewrite map_length. auto.
Qed.
Definition Sc (a : list (list R)) (c : R) : Prop := forall v, length v = n -> mulR a (mulR a v) = map (Rmult c) (mulR a v).
Definition Zr (a : list (list R)) : Prop := forall v, length v = n -> mulR a v = repeat 0 n.
Lemma Sc_iff a c : sq_mat a -> (Sc a c <-> mmL n a a = map (map (Rmult c)) a).
Proof.
  intros S. destruct (S) as [L Rr]. assert (M : forall v, length v = n -> mulR (mmL n a a) v = mulR a (mulR a v)).
  { intros v Lv. apply (mm_mul n a a v); auto. unfold rows. now rewrite L. }
  split; intros H.
  - apply mat_ext; [now apply mm_sq | now apply scl_sq|]. intros v Lv. rewrite M, mul_scale2 by auto. auto.
  - intros v Lv. rewrite <- M, H, mul_scale2 by auto. auto.
Qed.
Lemma concat_scl c (a : list (list R)) : concat (map (map (Rmult c)) a) = map (Rmult c) (concat a).
Proof. induction a; simpl; auto. now rewrite map_app, IHa. Qed.
Lemma combine_map_r (l : list R) c x y : In (x, y) (combine l (map (Rmult c) l)) -> y = c * x.
Proof. induction l; simpl; [tauto|]. intros [E|H]; auto. injection E as -> <-. auto. Qed.
Lemma concat_len (a : list (list R)) : sq_mat a -> length (concat a) = (n * n)%nat.
Proof.
  intros [L Rr]. rewrite <- L at 1. clear L. induction Rr as [|r a Hr Ra IH]; simpl; auto. rewrite app_length, IH, Hr. auto.
Qed.
Lemma factor_none a : sq_mat a -> (factor a = None <-> Zr a).
Proof.
  intros S. destruct (S) as [L Rr]. unfold factor. split.
  - destruct (find _ _) as [[x y]|] eqn:E; [discriminate|]. intros _ v Lv.
    assert (Z : forall x, In x (concat a) -> x = 0).
    { intros x Hx. rewrite L in E.
      assert (X : exists y, In (x, y) (combine (concat a) (concat (mmL n a a)))).
      { apply In_nth_error in Hx as [i Hi]. assert (Li : (i < length (concat a))%nat) by (apply nth_error_Some; congruence).
        exists (nth i (concat (mmL n a a)) 0). rewrite <- (nth_error_nth _ _ 0 Hi). rewrite <- (combine_nth (concat a) (concat (mmL n a a)) i 0 0).
        - apply nth_In. rewrite combine_length, !concat_len in * by (auto; now apply mm_sq). lia.
        - rewrite !concat_len; auto. now apply mm_sq. }
      destruct X as [y Hy]. pose proof (find_none _ _ E _ Hy) as N. simpl in N. destruct (Req_EM_T x 0); [auto | discriminate]. }
    clear E. rewrite <- L. unfold mulR. clear L S. revert Z. induction a as [|r a IH]; intros Z; simpl; auto.
    inversion Rr; subst. f_equal; [|apply IH; auto; intros x Hx; apply Z; simpl; apply in_or_app; auto].
    assert (Zr' : forall x, In x r -> x = 0) by (intros x Hx; apply Z; simpl; apply in_or_app; auto).
    apply dot_zeros_l. auto.
  - intros Z. assert (E : a = map (map (Rmult 0)) a).
    { apply mat_ext; [auto | now apply scl_sq|]. intros v Lv. rewrite mul_scale2, Z by auto.
      clear. induction n; simpl; auto. rewrite <- IHn0. f_equal. ring. }
    destruct (find _ _) as [[x y]|] eqn:F; auto. apply find_some in F as [F1 F2]. simpl in F2.
    destruct (Req_EM_T x 0) as [|Nx]; [discriminate|]. exfalso. apply Nx. apply in_combine_l in F1.
    rewrite E, concat_scl in F1. apply in_map_iff in F1 as (z & <- & _). ring.
Qed.
Lemma factor_Sc a c : sq_mat a -> Sc a c -> ~ Zr a -> factor a = Some c.
Proof.
  intros S H NZ. apply (Sc_iff _ _ S) in H. destruct (factor a) as [c'|] eqn:E; [|exfalso; apply NZ; now apply factor_none].
  unfold factor in E. destruct (find _ _) as [[x y]|] eqn:F; [|discriminate]. injection E as <-. f_equal.
  apply find_some in F as [F1 F2]. simpl in F2. destruct (Req_EM_T x 0) as [|Nx]; [discriminate|].
  rewrite (proj1 S), H, concat_scl in F1. apply combine_map_r in F1. subst y. now field.
Qed.
Lemma flat_cases a eps : sq_mat a ->
  (Zr a /\ flat_pinv (map (map Fin) a) eps = PInv (map (map Fin) (map (map (fun _ => 0)) a))) \/
  (~ Zr a /\ exists c, c <> 0 /\ Sc a c /\ flat_pinv (map (map Fin) a) eps = PInv (map (map Fin) (map (map (fun x => x / (c * c))) a))) \/
  (~ Zr a /\ (forall c, c <> 0 -> ~ Sc a c) /\ flat_pinv (map (map Fin) a) eps = PErr).
Proof.
  intros S. unfold flat_pinv. rewrite vx_FinM. destruct (factor a) as [c|] eqn:E.
  - assert (NZ : ~ Zr a) by (intros Z; apply (factor_none _ S) in Z; congruence). right.
    assert (U : forall c', Sc a c' -> c' = c) by (intros c' H; pose proof (factor_Sc _ _ S H NZ); congruence).
    destruct (Req_EM_T c 0) as [Z|Nc].
    { right. split; auto. split; auto. intros c' Nc' H. apply U in H. congruence. }
    destruct (list_eq_dec _ _ _) as [M|M].
    + left. split; auto. exists c. split; auto. rewrite (proj1 S) in M. split; [now apply Sc_iff|]. f_equal. rewrite map_map. apply map_ext. intros r. now rewrite map_map.
    + right. split; auto. split; auto. intros c' Nc' H. pose proof (U _ H) as ->. apply M. rewrite (proj1 S). now apply Sc_iff.
  - left. split; [now apply factor_none|]. f_equal. rewrite map_map. apply map_ext. intros r. now rewrite map_map.
Qed.
End P.
Lemma flat_coordinate_free : coordinate_free flat_pinv.
Proof.
  intros n Q a b eps (QL & QA & QS & QD & QO) (La & Ra & _) (Lb & Rb & _) H.
  assert (Sa : sq_mat n a) by (split; auto). assert (Sb : sq_mat n b) by (split; auto).
  assert (Lm : forall a v, sq_mat n a -> length (mulR a v) = n) by (intros x v [L _]; unfold mulR; now rewrite map_length).
  assert (Q0 : Q (repeat 0 n) = repeat 0 n).
  { assert (L0 : length (repeat 0 n) = n) by apply repeat_length.
    assert (E0 : forall l, map (Rmult 0) l = repeat 0 (length l)) by (induction l; simpl; [auto | rewrite IHl; f_equal; ring]).
    pose proof (QS 0 (repeat 0 n) L0) as E. rewrite !E0, L0, QL in E by auto. exact E. }
  assert (QI : forall u v, length u = n -> length v = n -> Q u = Q v -> u = v).
  { intros u v Lu Lv E. apply (dot_ext n); auto. intros e Le. rewrite <- (QD u e), <- (QD v e), E by auto. auto. }
  assert (HZ : Zr n a <-> Zr n b).
  { split; intros Z v Lv.
    - destruct (QO v Lv) as (u & Lu & <-). now rewrite H, Z, Q0 by auto.
    - apply QI; [now apply Lm | apply repeat_length|]. rewrite <- H, Z, Q0 by auto. auto. }
  assert (HS : forall c, Sc n a c <-> Sc n b c).
  { intros c. split; intros Z v Lv.
    - destruct (QO v Lv) as (u & Lu & <-). rewrite !H by (auto; now apply Lm). rewrite Z, QS by (auto; now apply Lm). auto.
    - apply QI; [now apply Lm | rewrite map_length; now apply Lm|]. rewrite QS, <- !H by (auto; now apply Lm). rewrite <- Z by auto. auto. }
  assert (FS : forall f (m : list (list R)), sq_mat n m -> sq_mat n (map (map f) m)).
  { intros f m [L Rr]. split; [now rewrite map_length|]. rewrite List.Forall_forall in *. intros r Hr.
    apply in_map_iff in Hr as (x & <- & Hx). rewrite map_length. auto. }
  destruct (flat_cases n a eps Sa) as [[Z1 ->]|[(Z1 & c & N1 & S1 & ->)|(Z1 & S1 & ->)]];
    destruct (flat_cases n b eps Sb) as [[Z2 ->]|[(Z2 & c' & N2 & S2 & ->)|(Z2 & S2 & ->)]]; try tauto.
  - exists (map (map (fun _ => 0)) a), (map (map (fun _ => 0)) b).
    destruct (FS (fun _ => 0) a Sa), (FS (fun _ => 0) b Sb). repeat (split; auto).
    intros v Lv. rewrite !mul_zero, La, Lb. now rewrite Q0.
  - assert (c' = c).
    { apply HS in S1. pose proof (factor_Sc n b c Sb S1 Z2). pose proof (factor_Sc n b c' Sb S2 Z2). congruence. }
    subst c'. exists (map (map (fun x => x / (c * c))) a), (map (map (fun x => x / (c * c))) b).
    destruct (FS (fun x => x / (c * c)) a Sa), (FS (fun x => x / (c * c)) b Sb). repeat (split; auto).
    intros v Lv. rewrite !mul_scale, H, QS by (auto; now apply Lm). auto.
  - exfalso. apply (S2 c N1). now apply HS.
  - exfalso. apply (S1 c' N2). now apply HS.
Qed.
