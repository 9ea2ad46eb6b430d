(** * Sketches entered constraint by constraint: gradients (C85) *)
From Coq Require Import List ZArith NArith Arith Bool Lia Reals Lra Permutation ClassicalEpsilon.
From Verif Require Import Arith Vec Prim Cons Sketch Solve Api Spec SolverSpec ArithR ExactSpec TreeSpec
  HeapLemmas SolveLemmas WfLemmas DataLemmas SpecLemmas ExactLemmas DerivLemmas GradLemmas LossLemmas MotionLemmas RateLemmas.
Import ListNotations.
Local Open Scope R_scope.

(** ** one constraint, one moving point *)
Ltac pairs := unfold pairing, pairT, on_line; cbn [map sumR fold_right fst snd D1 cx cy cr csa cea nth].
Ltac eqbs := repeat match goal with |- context[Nat.eqb ?x ?y] => destruct (Nat.eqb_spec x y) end.
Lemma elsewhere g h c p v :
  (In p (mentions h c) -> (acts_x c = true -> fst v = 0) /\ (acts_y c = true -> snd v = 0)) ->
  pairing h (D1 p v) (rowsR g h c) = 0.
Proof.
  intros H. destruct v as [vx vy]. cbn [fst snd] in H.
  destruct (in_dec Nat.eq_dec p (mentions h c)) as [I|N].
  - destruct (H I) as [Hx Hy]. destruct c; cbn [acts_x acts_y rowsR] in *; pairs;
    try (rewrite (Hx eq_refl)); try (rewrite (Hy eq_refl)); eqbs; ring.
  - clear H. destruct c; cbn [mentions rowsR app] in *; pairs; eqbs; subst; try (exfalso; apply N; cbn [In]; tauto); ring.
Qed.

Lemma sumsq_pos_eq a b : a * a + b * b = 0 -> a = 0 /\ b = 0.
Proof. intros. apply sumsq_0. lra. Qed.
Definition ends (h : heap xR) l := [l_start (getL h l); l_end (getL h l)].
(** a line is moved at one of its end points *)
Lemma own_lines h l1 l2 w1 w2 p : count_occ Nat.eq_dec (ends h l1 ++ ends h l2) p = 1%nat ->
  (forall v, pairing h (D1 p v) [on_line l1 w1; on_line l2 w2] = 0) ->
  (In p (ends h l1) /\ w1 = (0, 0)) \/ (In p (ends h l2) /\ w2 = (0, 0)).
Proof.
  intros C P. unfold ends in C. cbn [app] in C.
  set (a := l_start (getL h l1)) in *. set (b := l_end (getL h l1)) in *.
  set (c := l_start (getL h l2)) in *. set (d := l_end (getL h l2)) in *.
  pose proof (P (1, 0)) as Px. pose proof (P (0, 1)) as Py. clear P. revert Px Py. pairs.
  unfold ends. fold a b c d. cbn [count_occ In] in *.
  destruct w1 as [x1 y1], w2 as [x2 y2]. cbn [fst snd].
  destruct (Nat.eq_dec a p), (Nat.eq_dec b p), (Nat.eq_dec c p), (Nat.eq_dec d p); try discriminate C;
  eqbs; try congruence; intros Px Py; first [left; split; [tauto|]; f_equal; lra | right; split; [tauto|]; f_equal; lra].
Qed.
Lemma ratio_zero (a b : R) : 0 < b -> a / b = 0 -> a = 0.
Proof. intros. apply (Rmult_eq_reg_r (/ b)); [lra|]. apply Rinv_neq_0_compat. lra. Qed.

Lemma own h c p : let g := cfg_of h in nondegenerate g h c -> count_occ Nat.eq_dec (mentions h c) p = 1%nat ->
  (forall v, (acts_x c = false -> fst v = 0) -> (acts_y c = false -> snd v = 0) -> pairing h (D1 p v) (rowsR g h c) = 0) ->
  satisfied g h c \/ crosswise g h c.
Proof.
  intros g Nd C P. clearbody g. destruct c; cbn [rowsR satisfied crosswise nondegenerate mentions acts_x acts_y] in *.
  - (* angle *)
    left. destruct Nd as (T1 & T2 & X). destruct (Rlt_dec _ _); [lra|]. destruct (Rlt_dec _ _); [lra|].
    unfold angleR. set (u := from_to g pm p1) in *. set (w := from_to g pm p2) in *. pose proof tiny_pos as TP.
    assert (Lu : 0 < len u) by lra. assert (Lw : 0 < len w) by lra.
    set (ct := dotR u w / (len u * len w)) in *.
    set (e := (acos ct - vx desired) * (-1 / sqrt (1 - ct * ct))) in *.
    assert (S : 0 < 1 - ct * ct).
    { unfold ct. rewrite sin2_eq by auto. apply Rdiv_lt_0_compat; [nra|]. repeat apply Rmult_lt_0_compat; lra. }
    assert (Z : e = 0).
    { assert (A1 : forall t, 0 < t -> e * (crossR u w * crossR u w) / t = 0 -> e = 0).
      { intros t Ht E. apply ratio_zero in E; auto. apply Rmult_integral in E as [E|E]; auto. exfalso. nra. }
      pose proof (len_sq u) as Qu. pose proof (len_sq w) as Qw.
      assert (K1 : (e * (1 / (len u * len w)) * fst w + e * (- dotR u w / (len u * len u * len w)) * (fst u / len u)) * fst w
                 + (e * (1 / (len u * len w)) * snd w + e * (- dotR u w / (len u * len u * len w)) * (snd u / len u)) * snd w
                 = e * (crossR u w * crossR u w) / (len u * len u * len u * len w)).
      { transitivity (e * ((len u * len u) * (fst w * fst w + snd w * snd w) - dotR u w * dotR u w) / (len u * len u * len u * len w)).
        - unfold dotR. field. lra.
        - rewrite Qu. unfold dotR, crossR. f_equal. ring. }
      assert (K2 : (e * (1 / (len u * len w)) * fst u + e * (- dotR u w / (len u * len w * len w)) * (fst w / len w)) * fst u
                 + (e * (1 / (len u * len w)) * snd u + e * (- dotR u w / (len u * len w * len w)) * (snd w / len w)) * snd u
                 = e * (crossR u w * crossR u w) / (len u * len w * len w * len w)).
      { transitivity (e * ((len w * len w) * (fst u * fst u + snd u * snd u) - dotR u w * dotR u w) / (len u * len w * len w * len w)).
        - unfold dotR. field. lra.
        - rewrite Qw. unfold dotR, crossR. f_equal. ring. }
      assert (K3 : (e * (1 / (len u * len w)) * fst w + e * (- dotR u w / (len u * len u * len w)) * (fst u / len u)) * fst u
                 + (e * (1 / (len u * len w)) * snd w + e * (- dotR u w / (len u * len u * len w)) * (snd u / len u)) * snd u = 0).
      { transitivity (e * dotR u w * (len u * len u - (fst u * fst u + snd u * snd u)) / (len u * len u * len u * len w)).
        - unfold dotR. field. lra.
        - rewrite Qu. unfold Rdiv. ring. }
      destruct (Nat.eq_dec p1 p) as [<-|N1]; [|destruct (Nat.eq_dec p2 p) as [<-|N2]].
      - assert (E := P w ltac:(discriminate) ltac:(discriminate)). revert E. pairs.
        cbn [count_occ] in C. destruct (Nat.eq_dec p1 p1); [|congruence].
        destruct (Nat.eq_dec p2 p1) as [|N2]; [discriminate C|]. destruct (Nat.eq_dec pm p1) as [|N3]; [discriminate C|].
        rewrite Nat.eqb_refl, (proj2 (Nat.eqb_neq _ _) N2), (proj2 (Nat.eqb_neq _ _) N3). intros E.
        apply (A1 (len u * len u * len u * len w)); [repeat apply Rmult_lt_0_compat; auto|]. rewrite <- K1. lra.
      - assert (E := P u ltac:(discriminate) ltac:(discriminate)). revert E. pairs.
        cbn [count_occ] in C. destruct (Nat.eq_dec p1 p2) as [|N3]; [congruence|]. destruct (Nat.eq_dec p2 p2); [|congruence].
        destruct (Nat.eq_dec pm p2) as [|N4]; [discriminate C|].
        rewrite Nat.eqb_refl, (proj2 (Nat.eqb_neq _ _) N3), (proj2 (Nat.eqb_neq _ _) N4). intros E.
        apply (A1 (len u * len w * len w * len w)); [repeat apply Rmult_lt_0_compat; auto|]. rewrite <- K2. lra.
      - assert (E := P u ltac:(discriminate) ltac:(discriminate)). revert E. pairs.
        cbn [count_occ] in C. destruct (Nat.eq_dec p1 p); [tauto|]. destruct (Nat.eq_dec p2 p); [tauto|].
        destruct (Nat.eq_dec pm p) as [<-|]; [|discriminate C].
        rewrite Nat.eqb_refl, (proj2 (Nat.eqb_neq _ _) N1), (proj2 (Nat.eqb_neq _ _) N2). intros E.
        apply (A1 (len u * len w * len w * len w)); [repeat apply Rmult_lt_0_compat; auto|]. rewrite <- K2. lra. }
    unfold e in Z. apply Rmult_integral in Z as [Z|Z]; [lra|]. exfalso.
    assert (0 < sqrt (1 - ct * ct)) by (now apply sqrt_lt_R0). unfold Rdiv in Z.
    apply Rmult_integral in Z as [Z|Z]; [lra|]. assert (/ sqrt (1 - ct * ct) <> 0) by (apply Rinv_neq_0_compat; lra). tauto.
  - left. pose proof (P (1, 0) ltac:(discriminate) ltac:(discriminate)) as Px. pose proof (P (0, 1) ltac:(discriminate) ltac:(discriminate)) as Py.
    revert Px Py. pairs. cbn [count_occ] in C.
    destruct (Nat.eq_dec (a_center (getA h a)) p), (Nat.eq_dec p0 p); try discriminate C; eqbs; try congruence; intros; (match goal with |- ?t = _ => rewrite (surjective_pairing t) end); f_equal; lra.
  - left. pose proof (P (1, 0) ltac:(discriminate) ltac:(discriminate)) as Px. pose proof (P (0, 1) ltac:(discriminate) ltac:(discriminate)) as Py.
    revert Px Py. pairs. cbn [count_occ] in C.
    destruct (Nat.eq_dec (a_center (getA h a)) p), (Nat.eq_dec p0 p); try discriminate C; eqbs; try congruence; intros; (match goal with |- ?t = _ => rewrite (surjective_pairing t) end); f_equal; lra.
  - left. set (u := from_to g p2 p1) in *. pose proof tiny_pos as TP. assert (Lu : 0 < len u) by lra.
    pose proof (P u ltac:(discriminate) ltac:(discriminate)) as Pu. revert Pu. pairs. cbn [count_occ] in C.
    assert (K : (len u - vx desired) * (fst u / len u) * fst u + (len u - vx desired) * (snd u / len u) * snd u = (len u - vx desired) * len u).
    { transitivity ((len u - vx desired) * ((fst u * fst u + snd u * snd u) / len u)); [field; lra|]. rewrite <- len_sq. field. lra. }
    assert (Z : (len u - vx desired) * len u = 0 -> len u = vx desired).
    { intros Z. apply Rmult_integral in Z as [Z|Z]; lra. }
    destruct (Nat.eq_dec p1 p), (Nat.eq_dec p2 p); try discriminate C; eqbs; try congruence; intros; apply Z; lra.
  - left. pose proof (P (1, 0) ltac:(discriminate) ltac:(reflexivity)) as Px. revert Px. pairs. cbn [count_occ] in C.
    destruct (Nat.eq_dec p1 p), (Nat.eq_dec p2 p); try discriminate C; eqbs; try congruence; intros; lra.
  - left. pose proof (P (0, 1) ltac:(reflexivity) ltac:(discriminate)) as Px. revert Px. pairs. cbn [count_occ] in C.
    destruct (Nat.eq_dec p1 p), (Nat.eq_dec p2 p); try discriminate C; eqbs; try congruence; intros; lra.
  - left. pose proof (P (1, 0) ltac:(discriminate) ltac:(discriminate)) as Px. pose proof (P (0, 1) ltac:(discriminate) ltac:(discriminate)) as Py.
    revert Px Py. pairs. cbn [count_occ] in C. destruct (Nat.eq_dec p0 p); try discriminate C; eqbs; try congruence; intros; lra.
  - left. destruct Nd as [N1 N2]. pose proof (len_pos _ N1) as L1. pose proof (len_pos _ N2) as L2.
    assert (Z : forall u e, 0 < len u -> (e * (fst u / len u), e * (snd u / len u)) = (0, 0) -> e = 0).
    { intros u e Lu E. injection E as Ex Ey. assert (Q : e * len u = 0); [|apply Rmult_integral in Q as [Q|Q]; lra].
      transitivity (e * (fst u / len u) * fst u + e * (snd u / len u) * snd u); [|rewrite Ex, Ey; ring].
      transitivity (e * ((fst u * fst u + snd u * snd u) / len u)); [rewrite <- len_sq; field|field]; lra. }
    destruct (own_lines h l1 l2 _ _ p C (fun v => P v ltac:(discriminate) ltac:(discriminate))) as [[_ E]|[_ E]].
    + apply Z in E; auto. lra.
    + assert (E' : ((- (len (dirR g h l1) - len (dirR g h l2))) * (fst (dirR g h l2) / len (dirR g h l2)),
         (- (len (dirR g h l1) - len (dirR g h l2))) * (snd (dirR g h l2) / len (dirR g h l2))) = (0, 0)).
      { rewrite <- E. f_equal; field; lra. }
      apply Z in E'; auto. lra.
  - left. pose proof (P (0, 1) ltac:(reflexivity) ltac:(discriminate)) as Px. revert Px. pairs. cbn [count_occ] in C.
    unfold dirR, from_to. cbn [fst snd].
    destruct (Nat.eq_dec (l_start (getL h l)) p), (Nat.eq_dec (l_end (getL h l)) p); try discriminate C; eqbs; try congruence; intros; lra.
  - left. pose proof (P (1, 0) ltac:(discriminate) ltac:(reflexivity)) as Px. revert Px. pairs. cbn [count_occ] in C.
    unfold dirR, from_to. cbn [fst snd].
    destruct (Nat.eq_dec (l_start (getL h l)) p), (Nat.eq_dec (l_end (getL h l)) p); try discriminate C; eqbs; try congruence; intros; lra.
  - destruct Nd as [N1 N2]. pose proof (len_pos _ N1) as L1. pose proof (len_pos _ N2) as L2.
    destruct (own_lines h l1 l2 _ _ p C (fun v => P v ltac:(discriminate) ltac:(discriminate))) as [[_ E]|[_ E]].
    + apply ngrad_zero in E; auto. set (u := dirR g h l1) in *. set (v := dirR g h l2) in *.
      assert (Q : crossR u v * dotR u v = 0); [|apply Rmult_integral in Q as [Q|Q]; tauto].
      transitivity ((crossR u v / (len u * len v) * (snd v / len v) * snd u - crossR u v / (len u * len v) * - (fst v / len v) * fst u) * (len u * len v * len v)); [|rewrite E; ring].
      unfold dotR. field. lra.
    + apply ngrad_zero in E; auto. set (u := dirR g h l1) in *. set (v := dirR g h l2) in *.
      assert (Q : crossR u v * dotR u v = 0); [|apply Rmult_integral in Q as [Q|Q]; tauto].
      transitivity (- (crossR u v / (len u * len v) * - (snd u / len u) * snd v - crossR u v / (len u * len v) * (fst u / len u) * fst v) * (len u * len v * len u)); [|rewrite E; ring].
      unfold dotR. field. lra.
  - destruct Nd as [N1 N2]. pose proof (len_pos _ N1) as L1. pose proof (len_pos _ N2) as L2.
    destruct (own_lines h l1 l2 _ _ p C (fun v => P v ltac:(discriminate) ltac:(discriminate))) as [[_ E]|[_ E]].
    + apply ngrad_zero in E; auto. set (u := dirR g h l1) in *. set (v := dirR g h l2) in *.
      assert (Q : dotR u v * crossR u v = 0); [|apply Rmult_integral in Q as [Q|Q]; tauto].
      transitivity (- (dotR u v / (len u * len v) * (fst v / len v) * snd u - dotR u v / (len u * len v) * (snd v / len v) * fst u) * (len u * len v * len v)); [|rewrite E; ring].
      unfold crossR. field. lra.
    + apply ngrad_zero in E; auto. set (u := dirR g h l1) in *. set (v := dirR g h l2) in *.
      assert (Q : dotR u v * crossR u v = 0); [|apply Rmult_integral in Q as [Q|Q]; tauto].
      transitivity ((dotR u v / (len u * len v) * (fst u / len u) * snd v - dotR u v / (len u * len v) * (snd u / len u) * fst v) * (len u * len v * len u)); [|rewrite E; ring].
      unfold crossR. field. lra.
Qed.
