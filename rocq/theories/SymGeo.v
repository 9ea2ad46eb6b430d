(** * Losses and gradients of a moved constraint (for C66 and C67) *)
From Coq Require Import List ZArith NArith Arith Bool Lia Permutation Reals Lra.
From Verif Require Import Arith Vec Prim Cons Sketch Solve Api Spec ArithR ExactSpec MotionSpec SymSpec
  HeapLemmas SolveLemmas ExactLemmas DerivLemmas GradLemmas LossLemmas RMat.
Import ListNotations.
Local Open Scope R_scope.

Section Geo.
Variables (r : renaming) (phi tx ty : R) (h1 h2 : heap xR) (W : pcell -> Prop).
Let g1 := cfg_of h1.
Let g2 := cfg_of h2.
Hypothesis HP : forall l, W (PPoint l) ->
  cx g2 (rn_point r l) = move_x phi tx (cx g1 l) (cy g1 l) /\ cy g2 (rn_point r l) = move_y phi ty (cx g1 l) (cy g1 l).
Hypothesis HA : forall a, W (PArc a) ->
  cr g2 (rn_arc r a) = cr g1 a /\ csa g2 (rn_arc r a) = csa g1 a + phi /\ cea g2 (rn_arc r a) = cea g1 a + phi.
Hypothesis HLr : forall l, W (PLine l) -> l_start (getL h2 (rn_line r l)) = rn_point r (l_start (getL h1 l)) /\
  l_end (getL h2 (rn_line r l)) = rn_point r (l_end (getL h1 l)) /\ W (PPoint (l_start (getL h1 l))) /\ W (PPoint (l_end (getL h1 l))).
Hypothesis HAr : forall a, W (PArc a) -> a_center (getA h2 (rn_arc r a)) = rn_point r (a_center (getA h1 a)) /\ W (PPoint (a_center (getA h1 a))).

Definition turnable (c : con xR) : Prop := phi = 0 \/ turns_with c = true.
Definition wref (c : con xR) : Prop := forall x, In x (con_refs c) -> W x.

Lemma m_ft p q : W (PPoint p) -> W (PPoint q) -> from_to g2 (rn_point r q) (rn_point r p) = rot phi (from_to g1 q p).
Proof.
  intros Wp Wq. destruct (HP p Wp) as [E1 E2], (HP q Wq) as [E3 E4]. unfold from_to. rewrite E1, E2, E3, E4.
  unfold move_x, move_y, rot; simpl. f_equal; ring.
Qed.
Lemma m_dir l : W (PLine l) -> dirR g2 h2 (rn_line r l) = rot phi (dirR g1 h1 l).
Proof. intros H. destruct (HLr l H) as (E1 & E2 & W1 & W2). unfold dirR. rewrite E1, E2. now apply m_ft. Qed.
Lemma m_end a p : W (PArc a) -> W (PPoint p) ->
  fst (end_pt g2 h2 (rn_arc r a)) - cx g2 (rn_point r p) = fst (rot phi (fst (end_pt g1 h1 a) - cx g1 p, snd (end_pt g1 h1 a) - cy g1 p)) /\
  snd (end_pt g2 h2 (rn_arc r a)) - cy g2 (rn_point r p) = snd (rot phi (fst (end_pt g1 h1 a) - cx g1 p, snd (end_pt g1 h1 a) - cy g1 p)).
Proof.
  intros Wa Wp. destruct (HA a Wa) as (E1 & E2 & E3), (HAr a Wa) as [E4 Wc], (HP p Wp) as [E5 E6].
  destruct (HP _ Wc) as [E7 E8]. unfold end_pt. rewrite E4, E1, E3, E5, E6, E7, E8, cos_plus, sin_plus.
  unfold move_x, move_y, rot; cbn [fst snd]. split; ring.
Qed.
Lemma m_start a p : W (PArc a) -> W (PPoint p) ->
  fst (start_pt g2 h2 (rn_arc r a)) - cx g2 (rn_point r p) = fst (rot phi (fst (start_pt g1 h1 a) - cx g1 p, snd (start_pt g1 h1 a) - cy g1 p)) /\
  snd (start_pt g2 h2 (rn_arc r a)) - cy g2 (rn_point r p) = snd (rot phi (fst (start_pt g1 h1 a) - cx g1 p, snd (start_pt g1 h1 a) - cy g1 p)).
Proof.
  intros Wa Wp. destruct (HA a Wa) as (E1 & E2 & E3), (HAr a Wa) as [E4 Wc], (HP p Wp) as [E5 E6].
  destruct (HP _ Wc) as [E7 E8]. unfold start_pt. rewrite E4, E1, E2, E5, E6, E7, E8, cos_plus, sin_plus.
  unfold move_x, move_y, rot; cbn [fst snd]. split; ring.
Qed.
Lemma m_fix p x y : W (PPoint p) ->
  cx g2 (rn_point r p) - move_x phi tx x y = fst (rot phi (cx g1 p - x, cy g1 p - y)) /\
  cy g2 (rn_point r p) - move_y phi ty x y = snd (rot phi (cx g1 p - x, cy g1 p - y)).
Proof. intros Wp. destruct (HP p Wp) as [-> ->]. unfold move_x, move_y, rot; cbn [fst snd]. split; ring. Qed.
Lemma rot_zero u : rot phi u = (0, 0) <-> u = (0, 0).
Proof.
  split; intros H.
  - assert (D : dotR u u = 0). { rewrite <- (rot_dot phi), H. unfold dotR; simpl; ring. }
    unfold dotR in D. destruct u as [a b]; simpl in D.
    assert (a = 0) by nra. assert (b = 0) by nra. now subst.
  - subst. unfold rot; simpl. f_equal; ring.
Qed.

Ltac geo Wc := repeat first
  [ rewrite m_ft by (apply Wc; simpl; auto) | rewrite m_dir by (apply Wc; simpl; auto) ].

Lemma m_lossR c : turnable c -> wref c -> lossR g2 h2 (move_con r phi tx ty c) = lossR g1 h1 c.
Proof.
  intros T Wc. unfold lossR. f_equal. unfold turnable in T.
  destruct c; cbn [move_con rename_con residual2]; simpl in T.
  - unfold angleR. geo Wc. now rewrite !rot_dot, !rot_len.
  - destruct (m_end a p) as [-> ->]; [apply Wc; simpl; auto..|]. apply sum_sq_rot.
  - destruct (m_start a p) as [-> ->]; [apply Wc; simpl; auto..|]. apply sum_sq_rot.
  - geo Wc. now rewrite rot_len.
  - destruct T as [T|T]; [|discriminate]. pose proof (m_ft p2 p1 ltac:(apply Wc; simpl; auto) ltac:(apply Wc; simpl; auto)) as E.
    rewrite T, rot_0 in E. apply (f_equal fst) in E. simpl in E. simpl. now rewrite E.
  - destruct T as [T|T]; [|discriminate]. pose proof (m_ft p2 p1 ltac:(apply Wc; simpl; auto) ltac:(apply Wc; simpl; auto)) as E.
    rewrite T, rot_0 in E. apply (f_equal snd) in E. simpl in E. simpl. now rewrite E.
  - cbn [vx]. destruct (m_fix p (vx dx) (vx dy)) as [-> ->]; [apply Wc; simpl; auto|]. apply sum_sq_rot.
  - geo Wc. now rewrite !rot_len.
  - destruct T as [T|T]; [|discriminate]. geo Wc. now rewrite T, rot_0.
  - destruct T as [T|T]; [|discriminate]. geo Wc. now rewrite T, rot_0.
  - geo Wc. now rewrite !rot_len, rot_cross.
  - geo Wc. now rewrite !rot_len, rot_dot.
Qed.
Lemma m_eqlen c : wref c -> eqlen_ok g2 h2 (move_con r phi tx ty c) <-> eqlen_ok g1 h1 c.
Proof. intros Wc. destruct c; cbn [move_con rename_con eqlen_ok]; try tauto. geo Wc. now rewrite !rot_zero. Qed.
Lemma m_active c : wref c -> active g2 h2 (move_con r phi tx ty c) <-> active g1 h1 c.
Proof.
  intros Wc. destruct c; cbn [move_con rename_con active]; try tauto; geo Wc;
    rewrite ?rot_len, ?rot_cross, ?rot_zero; tauto.
Qed.

(** the row of a moved constraint *)
Definition trow (tr : gtarget * list R) : gtarget * list R :=
  match tr with
  | (GPoint p, [a; b]) => (GPoint (rn_point r p), [a * cos phi - b * sin phi; a * sin phi + b * cos phi])
  | (GLine l, [a; b; c; d]) => (GLine (rn_line r l), [a * cos phi - b * sin phi; a * sin phi + b * cos phi; c * cos phi - d * sin phi; c * sin phi + d * cos phi])
  | (GArc l, [a; b; c; d; e]) => (GArc (rn_arc r l), [a * cos phi - b * sin phi; a * sin phi + b * cos phi; c; d; e])
  | _ => tr
  end.
Lemma on_line_rot l w : on_line (rn_line r l) (rot phi w) = trow (on_line l w).
Proof. unfold on_line, rot, trow; cbn [fst snd]. f_equal. repeat (f_equal; try ring). Qed.
Lemma ngrad_eq u a b : ngrad u a b =
  ((a - fst u * dotR (a, b) u / (len u * len u)) / len u, (b - snd u * dotR (a, b) u / (len u * len u)) / len u).
Proof. unfold ngrad, dotR; cbn [fst snd]. f_equal; unfold Rdiv; ring. Qed.
Lemma ngrad_rot u a b a' b' : (a', b') = rot phi (a, b) -> ngrad (rot phi u) a' b' = rot phi (ngrad u a b).
Proof.
  intros E. rewrite !ngrad_eq, E, rot_dot, rot_len. unfold rot in *; cbn [fst snd] in *. injection E as -> ->.
  f_equal; unfold Rdiv; ring.
Qed.
Ltac rowsq := unfold rot; cbn [fst snd]; repeat match goal with |- _ :: _ = _ :: _ => apply f_equal2 | |- (_, _) = (_, _) => apply f_equal2 end; try reflexivity; unfold Rdiv; try ring.
Lemma arc_turn x y C S : let x' := fst (rot phi (x, y)) in let y' := snd (rot phi (x, y)) in
  x' * (C * cos phi - S * sin phi) + y' * (S * cos phi + C * sin phi) = x * C + y * S /\
  forall k, x' * (- k * (S * cos phi + C * sin phi)) + y' * (k * (C * cos phi - S * sin phi)) = x * (- k * S) + y * (k * C).
Proof.
  pose proof (sin2_cos2 phi) as S2. unfold Rsqr in S2. unfold rot; cbn [fst snd]. split.
  - transitivity ((x * C + y * S) * (sin phi * sin phi + cos phi * cos phi)); [ring | rewrite S2; ring].
  - intros k. transitivity ((x * (- k * S) + y * (k * C)) * (sin phi * sin phi + cos phi * cos phi)); [ring | rewrite S2; ring].
Qed.
Lemma m_rowsR c : turnable c -> wref c -> rowsR g2 h2 (move_con r phi tx ty c) = map trow (rowsR g1 h1 c).
Proof.
  intros T Wc. unfold turnable in T. destruct c; cbn [move_con rename_con rowsR]; simpl in T; cbn [map].
  - geo Wc. rewrite !rot_dot, !rot_len. cbn [map trow]. rowsq.
  - destruct (m_end a p) as [-> ->]; [apply Wc; simpl; auto..|]. destruct (HA a ltac:(apply Wc; simpl; auto)) as (-> & _ & ->).
    rewrite cos_plus, sin_plus. destruct (arc_turn (fst (end_pt g1 h1 a) - cx g1 p) (snd (end_pt g1 h1 a) - cy g1 p) (cos (cea g1 a)) (sin (cea g1 a))) as [-> ->].
    cbn [trow]. rowsq.
  - destruct (m_start a p) as [-> ->]; [apply Wc; simpl; auto..|]. destruct (HA a ltac:(apply Wc; simpl; auto)) as (-> & -> & _).
    rewrite cos_plus, sin_plus. destruct (arc_turn (fst (start_pt g1 h1 a) - cx g1 p) (snd (start_pt g1 h1 a) - cy g1 p) (cos (csa g1 a)) (sin (csa g1 a))) as [-> ->].
    cbn [trow]. rowsq.
  - geo Wc. rewrite !rot_len. cbn [trow]. rowsq.
  - destruct T as [T|T]; [|discriminate]. pose proof (m_ft p2 p1 ltac:(apply Wc; simpl; auto) ltac:(apply Wc; simpl; auto)) as E.
    rewrite T, rot_0 in E. apply (f_equal fst) in E. unfold from_to in E; cbn [fst snd] in E. cbn [trow]. rewrite E, T, cos_0, sin_0. rowsq.
  - destruct T as [T|T]; [|discriminate]. pose proof (m_ft p2 p1 ltac:(apply Wc; simpl; auto) ltac:(apply Wc; simpl; auto)) as E.
    rewrite T, rot_0 in E. apply (f_equal snd) in E. unfold from_to in E; cbn [fst snd] in E. cbn [trow]. rewrite E, T, cos_0, sin_0. rowsq.
  - cbn [vx]. destruct (m_fix p (vx dx) (vx dy)) as [-> ->]; [apply Wc; simpl; auto|]. cbn [trow]. rowsq.
  - geo Wc. rewrite !rot_len. unfold on_line. cbn [trow fst snd]. rowsq.
  - destruct T as [T|T]; [|discriminate]. geo Wc. rewrite T, rot_0. cbn [trow]. rewrite T, cos_0, sin_0. rowsq.
  - destruct T as [T|T]; [|discriminate]. geo Wc. rewrite T, rot_0. cbn [trow]. rewrite T, cos_0, sin_0. rowsq.
  - geo Wc. rewrite !rot_len, rot_cross. rewrite <- (on_line_rot l1), <- (on_line_rot l2). repeat f_equal; apply ngrad_rot; rowsq.
  - geo Wc. rewrite !rot_len, rot_dot. rewrite <- (on_line_rot l1), <- (on_line_rot l2). repeat f_equal; apply ngrad_rot; rowsq.
Qed.

(** pairing with a turned direction *)
Variables (D1 D2 : cfg).
Hypothesis DP : forall l, W (PPoint l) ->
  cx D2 (rn_point r l) = cx D1 l * cos phi - cy D1 l * sin phi /\ cy D2 (rn_point r l) = cx D1 l * sin phi + cy D1 l * cos phi.
Hypothesis DA : forall a, W (PArc a) -> cr D2 (rn_arc r a) = cr D1 a /\ csa D2 (rn_arc r a) = csa D1 a /\ cea D2 (rn_arc r a) = cea D1 a.
Definition tcell (t : gtarget) : pcell := match t with GPoint l => PPoint l | GLine l => PLine l | GArc l => PArc l end.
Lemma pt_turn a b l : W (PPoint l) ->
  (a * cos phi - b * sin phi) * cx D2 (rn_point r l) + (a * sin phi + b * cos phi) * cy D2 (rn_point r l) = a * cx D1 l + b * cy D1 l.
Proof. intros H. destruct (DP l H) as [-> ->]. exact (rot_dot phi (a, b) (cx D1 l, cy D1 l)). Qed.
Lemma m_pairT tr : wfrow tr -> W (tcell (fst tr)) -> pairT h2 D2 (trow tr) = pairT h1 D1 tr.
Proof.
  destruct tr as [t v]. unfold wfrow; cbn [fst snd]. destruct t as [l|l|l]; intros L Wt.
  - destruct v as [|a [|b [|]]]; try discriminate. unfold pairT; cbn [trow fst snd nth]. now apply pt_turn.
  - destruct v as [|a [|b [|c [|d [|]]]]]; try discriminate. unfold pairT; cbn [trow fst snd nth].
    destruct (HLr l Wt) as (-> & -> & W1 & W2). now rewrite !pt_turn.
  - destruct v as [|a [|b [|c [|d [|e [|]]]]]]; try discriminate. unfold pairT; cbn [trow fst snd nth].
    destruct (HAr l Wt) as (-> & W1). destruct (DA l Wt) as (-> & -> & ->). now rewrite !pt_turn.
Qed.
Lemma rows_targets c : wref c -> List.Forall (fun tr => W (tcell (fst tr))) (rowsR g1 h1 c).
Proof. intros Wc. destruct c; simpl; repeat constructor; apply Wc; simpl; auto. Qed.
Lemma m_pairing c : turnable c -> wref c ->
  pairing h2 D2 (rowsR g2 h2 (move_con r phi tx ty c)) = pairing h1 D1 (rowsR g1 h1 c).
Proof.
  intros T Wc. rewrite m_rowsR by auto. unfold pairing. rewrite map_map. f_equal. apply map_ext_in. intros tr Ht.
  pose proof (rowsR_wf g1 h1 c) as F1. pose proof (rows_targets c Wc) as F2.
  rewrite List.Forall_forall in F1, F2. apply m_pairT; auto.
Qed.
Lemma m_fin c : turnable c -> wref c -> con_finite h1 c -> con_finite h2 (move_con r phi tx ty c) -> eqlen_ok g1 h1 c ->
  pairing h2 D2 (fin_rows h2 (move_con r phi tx ty c)) = pairing h1 D1 (fin_rows h1 c).
Proof.
  intros T Wc F1 F2 E1. pose proof (proj2 (m_eqlen c Wc) E1) as E2.
  destruct (fin_rows_ok h1 c F1 E1) as (_ & _ & A1 & B1). destruct (fin_rows_ok h2 _ F2 E2) as (_ & _ & A2 & B2).
  destruct (Classical_Prop.classic (active g1 h1 c)) as [A|A].
  - rewrite A1, A2; auto; [now apply m_pairing|]. now apply m_active.
  - rewrite B1, B2; auto. intros B. apply A. now apply m_active.
Qed.
End Geo.
