(** * Exact arithmetic: gradients of single constraints (proofs for C15-C19) *)
From Coq Require Import Reals List Lra Lia Bool ZArith.
From Coquelicot Require Import Coquelicot.
From Verif Require Import Arith Vec Prim Cons Sketch Spec ArithR ExactSpec HeapLemmas ExactLemmas.
Import ListNotations.
Local Open Scope R_scope.

Definition toFin (tr : gtarget * list R) : gtarget * vec xR := (fst tr, map Fin (snd tr)).

(** when update_gradient adds anything at all *)
Definition active (g : cfg) (h : heap xR) (c : con xR) : Prop :=
  match c with
  | AngleBetweenPoints p1 p2 pm _ =>
      tiny <= len (from_to g pm p1) /\ tiny <= len (from_to g pm p2) /\
      crossR (from_to g pm p1) (from_to g pm p2) <> 0
  | EuclideanDistance p1 p2 _ => tiny <= len (from_to g p2 p1)
  | ParallelLines l1 l2 | PerpendicularLines l1 l2 =>
      dirR g h l1 <> (0, 0) /\ dirR g h l2 <> (0, 0)
  | _ => True
  end.
Definition eqlen_ok (g : cfg) (h : heap xR) (c : con xR) : Prop :=
  match c with EqualLength l1 l2 => dirR g h l1 <> (0, 0) /\ dirR g h l2 <> (0, 0) | _ => True end.

(** row vector times d(u/|u|)/du *)
Definition ngrad (u : R * R) (a b : R) : R * R :=
  ((a * (1 - fst u * fst u / (len u * len u)) + b * (0 - snd u * fst u / (len u * len u))) / len u,
   (a * (0 - fst u * snd u / (len u * len u)) + b * (1 - snd u * snd u / (len u * len u))) / len u).
Definition on_line (l : loc) (w : R * R) : gtarget * list R := (GLine l, [- fst w; - snd w; fst w; snd w]).

Definition rowsR (g : cfg) (h : heap xR) (c : con xR) : list (gtarget * list R) :=
  match c with
  | AngleBetweenPoints p1 p2 pm d =>
      let u := from_to g pm p1 in let v := from_to g pm p2 in
      let ct := dotR u v / (len u * len v) in
      let e := (acos ct - vx d) * (-1 / sqrt (1 - ct * ct)) in
      let k := e * (1 / (len u * len v)) in
      let k1 := e * (- dotR u v / (len u * len u * len v)) in
      let k2 := e * (- dotR u v / (len u * len v * len v)) in
      let a1 := k * fst v + k1 * (fst u / len u) in
      let a2 := k * snd v + k1 * (snd u / len u) in
      let b1 := k * fst u + k2 * (fst v / len v) in
      let b2 := k * snd u + k2 * (snd v / len v) in
      [(GPoint p1, [a1; a2]); (GPoint p2, [b1; b2]); (GPoint pm, [- a1 - b1; - a2 - b2])]
  | ArcEndPointCoincident a p =>
      let x := fst (end_pt g h a) - cx g p in let y := snd (end_pt g h a) - cy g p in
      [(GArc a, [x; y; x * cos (cea g a) + y * sin (cea g a); 0;
                 x * (- cr g a * sin (cea g a)) + y * (cr g a * cos (cea g a))]); (GPoint p, [- x; - y])]
  | ArcStartPointCoincident a p =>
      let x := fst (start_pt g h a) - cx g p in let y := snd (start_pt g h a) - cy g p in
      [(GArc a, [x; y; x * cos (csa g a) + y * sin (csa g a);
                 x * (- cr g a * sin (csa g a)) + y * (cr g a * cos (csa g a)); 0]); (GPoint p, [- x; - y])]
  | EuclideanDistance p1 p2 d =>
      let u := from_to g p2 p1 in
      let x := (len u - vx d) * (fst u / len u) in let y := (len u - vx d) * (snd u / len u) in
      [(GPoint p1, [x; y]); (GPoint p2, [- x; - y])]
  | HorizontalDistance p1 p2 d =>
      let e := cx g p2 - cx g p1 - vx d in [(GPoint p1, [- e; 0]); (GPoint p2, [e; 0])]
  | VerticalDistance p1 p2 d =>
      let e := cy g p2 - cy g p1 - vx d in [(GPoint p1, [0; - e]); (GPoint p2, [0; e])]
  | FixPoint p x y => [(GPoint p, [cx g p - vx x; cy g p - vx y])]
  | EqualLength l1 l2 =>
      let u := dirR g h l1 in let v := dirR g h l2 in let e := len u - len v in
      [on_line l1 (e * (fst u / len u), e * (snd u / len u));
       on_line l2 (e * (- fst v / len v), e * (- snd v / len v))]
  | HorizontalLine l =>
      let e := snd (dirR g h l) in [(GLine l, [0; - e; 0; 0]); (GLine l, [0; 0; 0; e])]
  | VerticalLine l =>
      let e := fst (dirR g h l) in [(GLine l, [- e; 0; 0; 0]); (GLine l, [0; 0; e; 0])]
  | ParallelLines l1 l2 =>
      let u := dirR g h l1 in let v := dirR g h l2 in
      let e := crossR u v / (len u * len v) in
      [on_line l1 (ngrad u (e * (snd v / len v)) (e * - (fst v / len v)));
       on_line l2 (ngrad v (e * - (snd u / len u)) (e * (fst u / len u)))]
  | PerpendicularLines l1 l2 =>
      let u := dirR g h l1 in let v := dirR g h l2 in
      let e := dotR u v / (len u * len v) in
      [on_line l1 (ngrad u (e * (fst v / len v)) (e * (snd v / len v)));
       on_line l2 (ngrad v (e * (fst u / len u)) (e * (snd u / len u)))]
  end.

(** ** The code's rows are these *)
Ltac lists := cbn [map]; repeat match goal with |- _ :: _ = _ :: _ => apply f_equal2; [apply f_equal; try ring|] end; try reflexivity.
Lemma dot1_2 a b c d : dot1 [Fin a; Fin b] [Fin c; Fin d] = Fin (a * c + b * d). Proof. reflexivity. Qed.
Lemma rowmul_point a b : rowmul 2 [Fin a; Fin b] point_gradient = map Fin [a; b].
Proof. unfold rowmul, point_gradient, mtrans, mcol; cbn [map seq nth]. xr. rewrite !dot1_2. lists. Qed.
Lemma rowmul_start a b : rowmul 4 [Fin a; Fin b] start_gradient = map Fin [a; b; 0; 0].
Proof. unfold rowmul, start_gradient, mtrans, mcol; cbn [map seq nth]. xr. rewrite !dot1_2. lists. Qed.
Lemma rowmul_end a b : rowmul 4 [Fin a; Fin b] end_gradient = map Fin [0; 0; a; b].
Proof. unfold rowmul, end_gradient, mtrans, mcol; cbn [map seq nth]. xr. rewrite !dot1_2. lists. Qed.
Lemma rowmul_ems a b : rowmul 4 [Fin a; Fin b] end_minus_start = map Fin [- a; - b; a; b].
Proof.
  unfold rowmul, end_minus_start, start_gradient, end_gradient, mtrans, mcol, vsub. cbn [map map2 seq nth].
  xr. rewrite !dot1_2. lists.
Qed.
Lemma rowmul_ngrad u a b : len u <> 0 ->
  rowmul 2 [Fin a; Fin b] (normalize_gradient (F2 u)) = [Fin (fst (ngrad u a b)); Fin (snd (ngrad u a b))].
Proof.
  intros H. unfold rowmul, normalize_gradient, mtrans, mcol. rewrite v2norm2_R, v2norm_R, <- len_sq.
  unfold F2. cbn [map seq nth fst snd]. xr. rewrite !div_R by nra. xr. rewrite !div_R by auto.
  rewrite !dot1_2. unfold ngrad. cbn [fst snd]. repeat (apply f_equal2; [f_equal; field; auto|]). reflexivity.
Qed.

Lemma sin2_eq u v : 0 < len u -> 0 < len v ->
  1 - dotR u v / (len u * len v) * (dotR u v / (len u * len v)) =
  crossR u v * crossR u v / ((len u * len v) * (len u * len v)).
Proof.
  intros H1 H2. pose proof (lagrange u v) as L. unfold sq in L.
  replace (crossR u v * crossR u v) with ((len u * len u) * (len v * len v) - dotR u v * dotR u v) by lra.
  field. split; lra.
Qed.
Lemma sin2_pos u v : 0 < len u -> 0 < len v -> crossR u v <> 0 ->
  0 < 1 - dotR u v / (len u * len v) * (dotR u v / (len u * len v)).
Proof.
  intros H1 H2 H3. rewrite sin2_eq by auto. assert (P : 0 < len u * len v) by nra.
  apply Rdiv_lt_0_compat; nra.
Qed.
Lemma sin2_zero u v : 0 < len u -> 0 < len v -> crossR u v = 0 ->
  1 - dotR u v / (len u * len v) * (dotR u v / (len u * len v)) = 0.
Proof. intros H1 H2 H3. rewrite sin2_eq, H3 by auto. field; lra. Qed.

Lemma fst_F2 w : fst (F2 w) = Fin (fst w). Proof. reflexivity. Qed.
Lemma snd_F2 w : snd (F2 w) = Fin (snd w). Proof. reflexivity. Qed.
Lemma grad_rows_R h c : con_finite h c -> eqlen_ok (cfg_of h) h c ->
  (active (cfg_of h) h c -> grad_rows h c = map toFin (rowsR (cfg_of h) h c)) /\
  (~ active (cfg_of h) h c -> grad_rows h c = []).
Proof.
  intros Hf Heq. pose proof Hf as [Hn _].
  destruct c; cbn [grad_rows rowsR con_new_ok active eqlen_ok] in *; unfold toFin; cbn [map fst snd].
  - (* angle *)
    assert (P1 := con_finite_pt _ _ p1 Hf ltac:(simpl; auto)).
    assert (P2 := con_finite_pt _ _ p2 Hf ltac:(simpl; auto)).
    assert (Pm := con_finite_pt _ _ pm Hf ltac:(simpl; auto)).
    apply ffin_inv in Hn. rewrite Hn. cbn [vx].
    rewrite (pdata_R _ _ P1), (pdata_R _ _ P2), (pdata_R _ _ Pm).
    rewrite !v2sub_R, !v2norm_R, v2dot_R.
    cbn [fst snd]. fold (from_to (cfg_of h) pm p1). fold (from_to (cfg_of h) pm p2).
    set (u := from_to (cfg_of h) pm p1). set (v := from_to (cfg_of h) pm p2).
    rewrite !abs_R, l6_R, !lt_R. rewrite !Rabs_right by (apply Rle_ge, len_nonneg).
    unfold Rltb. destruct (Rlt_dec (len u) tiny); [split; [lra|auto]|].
    destruct (Rlt_dec (len v) tiny); cbn [orb]; [split; [lra|auto]|].
    pose proof tiny_pos. assert (U : 0 < len u) by lra. assert (V : 0 < len v) by lra.
    rewrite mul_R, div_R by nra.
    pose proof (cos_bound u v U V).
    rewrite clamp_R, acos_R by auto. rewrite fin_R. cbn [negb].
    rewrite mul_R, f1_R, sub_R, max0_R.
    set (ct := dotR u v / (len u * len v)) in *.
    destruct (Req_dec (crossR u v) 0) as [E|E].
    + split; [tauto|]. intros _. rewrite (sin2_zero u v U V E : 1 - ct * ct = 0).
      rewrite Rmax_left by lra. rewrite sqrt_R by lra. rewrite sqrt_0. xr.
      simpl. destruct (Req_EM_T 0 0); [|lra]. unfold sgn_inf. destruct (Rlt_dec 0 (- (1))); [lra|].
      destruct (Rlt_dec (-(1)) 0); [auto|lra].
    + split; [intros _ | intros X; exfalso; apply X; repeat split; auto; lra].
      pose proof (sin2_pos u v U V E) as S. fold ct in S.
      rewrite Rmax_left by lra. rewrite sqrt_R by lra.
      assert (S' : 0 < sqrt (1 - ct * ct)) by now apply sqrt_lt_R0.
      rewrite neg_R, div_R by lra. rewrite fin_R. cbn [negb].
      assert (Puv : len u * len v <> 0) by nra.
      assert (Puuv : len u * len u * len v <> 0) by (repeat apply Rmult_integral_contrapositive_currified; lra).
      assert (Puvv : len u * len v * len v <> 0) by (repeat apply Rmult_integral_contrapositive_currified; lra).
      rewrite !mul_R, !neg_R, (div_R _ _ Puv), (div_R _ _ Puuv), (div_R _ _ Puvv). rewrite !sub_R, !mul_R.
      unfold v2row, F2, vdivs, vscale, vadd, vneg, vsub. cbn [map map2 fst snd]. rewrite !div_R by lra. rewrite !mul_R, !add_R.
      rewrite !neg_R. rewrite !rowmul_point. cbn [map map2]. rewrite !sub_R.
      replace (- (1)) with (-1) by lra.
      repeat (apply f_equal2; [apply f_equal2; [auto|]; lists|]); auto.
  - (* arc end *)
    assert (P1 := con_finite_arc _ _ a Hf ltac:(simpl; auto)).
    assert (P2 := con_finite_pt _ _ (a_center (getA h a)) Hf ltac:(simpl; auto)).
    assert (P3 := con_finite_pt _ _ p Hf ltac:(simpl; auto)).
    split; [intros _|tauto].
    rewrite (arc_end_R _ _ P1 P2), (pdata_R _ _ P3). unfold F2, vneg. cbn [map fst snd]. xr.
    rewrite rowmul_point. destruct (arc_R _ _ P1) as (R1 & R2 & R3).
    unfold rowmul, arc_end_point_gradient, mtrans, mcol. cbn [map seq nth]. rewrite R1, R3. xr. rewrite !dot1_2.
    apply f_equal2; [apply f_equal2; auto; lists|auto].
  - (* arc start *)
    assert (P1 := con_finite_arc _ _ a Hf ltac:(simpl; auto)).
    assert (P2 := con_finite_pt _ _ (a_center (getA h a)) Hf ltac:(simpl; auto)).
    assert (P3 := con_finite_pt _ _ p Hf ltac:(simpl; auto)).
    split; [intros _|tauto].
    rewrite (arc_start_R _ _ P1 P2), (pdata_R _ _ P3). unfold F2, vneg. cbn [map fst snd]. xr.
    rewrite rowmul_point. destruct (arc_R _ _ P1) as (R1 & R2 & R3).
    unfold rowmul, arc_start_point_gradient, mtrans, mcol. cbn [map seq nth]. rewrite R1, R2. xr. rewrite !dot1_2.
    apply f_equal2; [apply f_equal2; auto; lists|auto].
  - (* euclid *)
    assert (P1 := con_finite_pt _ _ p1 Hf ltac:(simpl; auto)).
    assert (P2 := con_finite_pt _ _ p2 Hf ltac:(simpl; auto)).
    apply ffin_inv in Hn. rewrite Hn. cbn [vx].
    rewrite (pdata_R _ _ P1), (pdata_R _ _ P2), v2sub_R, v2norm_R. cbn [fst snd].
    fold (from_to (cfg_of h) p2 p1). set (u := from_to (cfg_of h) p2 p1).
    rewrite l6_R, lt_R. unfold Rltb. destruct (Rlt_dec (len u) tiny); [split; [lra|auto]|].
    split; [intros _|lra]. pose proof tiny_pos.
    unfold v2row, F2, vdivs, vscale, vneg. cbn [map fst snd]. rewrite !div_R by lra. xr. rewrite !rowmul_point.
    apply f_equal2; [apply f_equal2; [auto|]; lists|]. apply f_equal2; [apply f_equal2; [auto|]; lists|auto].
  - assert (P1 := con_finite_pt _ _ p1 Hf ltac:(simpl; auto)).
    assert (P2 := con_finite_pt _ _ p2 Hf ltac:(simpl; auto)).
    apply ffin_inv in Hn. rewrite Hn. cbn [vx]. split; [intros _|tauto].
    rewrite (pdata_R _ _ P1), (pdata_R _ _ P2), v2sub_R. unfold F2, vscale, vneg. cbn [map fst snd]. xr. cbn [map]. rewrite ?mul_R, ?neg_R. rewrite !rowmul_point.
    repeat (apply f_equal2; [apply f_equal2; [auto|]; lists|]); auto.
  - assert (P1 := con_finite_pt _ _ p1 Hf ltac:(simpl; auto)).
    assert (P2 := con_finite_pt _ _ p2 Hf ltac:(simpl; auto)).
    apply ffin_inv in Hn. rewrite Hn. cbn [vx]. split; [intros _|tauto].
    rewrite (pdata_R _ _ P1), (pdata_R _ _ P2), v2sub_R. unfold F2, vscale, vneg. cbn [map fst snd]. xr. cbn [map]. rewrite ?mul_R, ?neg_R. rewrite !rowmul_point.
    repeat (apply f_equal2; [apply f_equal2; [auto|]; lists|]); auto.
  - assert (P1 := con_finite_pt _ _ p Hf ltac:(simpl; auto)).
    apply andb_true_iff in Hn as [N1 N2]. apply ffin_inv in N1, N2. rewrite N1, N2. cbn [vx]. split; [intros _|tauto].
    rewrite (pdata_R _ _ P1). change (Fin (vx dx), Fin (vx dy)) with (F2 (vx dx, vx dy)).
    rewrite v2sub_R. reflexivity.
  - (* equal length *)
    assert (L1 := con_finite_line _ _ l1 Hf ltac:(simpl; auto)).
    assert (L2 := con_finite_line _ _ l2 Hf ltac:(simpl; auto)).
    rewrite (line_dir _ _ L1), (line_dir _ _ L2), !v2norm_R.
    destruct Heq as [E1 E2]. apply len_pos in E1, E2. split; [intros _|tauto].
    set (u := dirR (cfg_of h) h l1) in *. set (v := dirR (cfg_of h) h l2) in *.
    unfold v2row, F2, vdivs, vscale, vneg. cbn [map fst snd]. rewrite !neg_R, !div_R by lra. xr. cbn [map]. rewrite ?mul_R.
    rewrite !rowmul_ems. reflexivity.
  - assert (L1 := con_finite_line _ _ l Hf ltac:(simpl; auto)). split; [intros _|tauto].
    destruct (line_ends _ _ L1) as [-> ->]. unfold F2, vneg. cbn [map fst snd]. xr. cbn [map]. rewrite ?neg_R.
    rewrite rowmul_start, rowmul_end. unfold dirR, from_to. cbn [fst snd].
    repeat (apply f_equal2; [apply f_equal2; [auto|]; lists|]); auto.
  - assert (L1 := con_finite_line _ _ l Hf ltac:(simpl; auto)). split; [intros _|tauto].
    destruct (line_ends _ _ L1) as [-> ->]. unfold F2, vneg. cbn [map fst snd]. xr. cbn [map]. rewrite ?neg_R.
    rewrite rowmul_start, rowmul_end. unfold dirR, from_to. cbn [fst snd].
    repeat (apply f_equal2; [apply f_equal2; [auto|]; lists|]); auto.
  - (* parallel *)
    assert (L1 := con_finite_line _ _ l1 Hf ltac:(simpl; auto)).
    assert (L2 := con_finite_line _ _ l2 Hf ltac:(simpl; auto)).
    rewrite (line_dir _ _ L1), (line_dir _ _ L2).
    set (u := dirR (cfg_of h) h l1). set (v := dirR (cfg_of h) h l2).
    destruct (Req_EM_T (len u) 0) as [E|E].
    { rewrite v2normalize_0 by auto. cbn [andb negb]. apply len_zero in E. split; [tauto|auto]. }
    destruct (Req_EM_T (len v) 0) as [E2|E2].
    { rewrite (v2normalize_0 v) by auto. rewrite andb_false_r. cbn [negb]. apply len_zero in E2. split; [tauto|auto]. }
    split; [intros _ | intros X; exfalso; apply X; split; rewrite <- len_zero; auto].
    rewrite !v2normalize_R by auto. rewrite !v2finite_R. cbn [andb negb].
    rewrite !fst_F2, !snd_F2. unfold vscale. cbn [map fst snd]. rewrite !neg_R, !mul_R, !sub_R, !mul_R.
    replace (fst u / len u * (snd v / len v) - snd u / len u * (fst v / len v)) with (crossR u v / (len u * len v)) by (unfold crossR; field; auto).
    rewrite !rowmul_ngrad by auto. rewrite !rowmul_ems. reflexivity.
  - assert (L1 := con_finite_line _ _ l1 Hf ltac:(simpl; auto)).
    assert (L2 := con_finite_line _ _ l2 Hf ltac:(simpl; auto)).
    rewrite (line_dir _ _ L1), (line_dir _ _ L2).
    set (u := dirR (cfg_of h) h l1). set (v := dirR (cfg_of h) h l2).
    destruct (Req_EM_T (len u) 0) as [E|E].
    { rewrite v2normalize_0 by auto. cbn [andb negb]. apply len_zero in E. split; [tauto|auto]. }
    destruct (Req_EM_T (len v) 0) as [E2|E2].
    { rewrite (v2normalize_0 v) by auto. rewrite andb_false_r. cbn [negb]. apply len_zero in E2. split; [tauto|auto]. }
    split; [intros _ | intros X; exfalso; apply X; split; rewrite <- len_zero; auto].
    rewrite !v2normalize_R by auto. rewrite !v2finite_R. cbn [andb negb]. rewrite v2dot_R.
    unfold v2row. rewrite !fst_F2, !snd_F2. unfold vscale; cbn [map fst snd]. rewrite !mul_R. 
    replace (dotR (fst u / len u, snd u / len u) (fst v / len v, snd v / len v)) with (dotR u v / (len u * len v)) by (unfold dotR; simpl; field; auto).
    rewrite !rowmul_ngrad by auto. rewrite !rowmul_ems. reflexivity.
Qed.

(** ** They are the derivative of the loss *)
Definition shift (g D : cfg) (t : R) : cfg :=
  mkCfg (fun l => cx g l + t * cx D l) (fun l => cy g l + t * cy D l) (fun l => cr g l + t * cr D l)
        (fun l => csa g l + t * csa D l) (fun l => cea g l + t * cea D l).

Definition pairT (h : heap xR) (D : cfg) (tr : gtarget * list R) : R :=
  let r := snd tr in
  match fst tr with
  | GPoint l => nth 0 r 0 * cx D l + nth 1 r 0 * cy D l
  | GLine l => nth 0 r 0 * cx D (l_start (getL h l)) + nth 1 r 0 * cy D (l_start (getL h l)) +
               (nth 2 r 0 * cx D (l_end (getL h l)) + nth 3 r 0 * cy D (l_end (getL h l)))
  | GArc a => nth 0 r 0 * cx D (a_center (getA h a)) + nth 1 r 0 * cy D (a_center (getA h a)) +
              (nth 2 r 0 * cr D a + nth 3 r 0 * csa D a + nth 4 r 0 * cea D a)
  end.
Definition pairing (h : heap xR) (D : cfg) (rows : list (gtarget * list R)) : R := sumR (map (pairT h D) rows).

Definition dpath (w : R -> R * R) (w' : R * R) : Prop :=
  is_derive (fun t => fst (w t)) 0 (fst w') /\ is_derive (fun t => snd (w t)) 0 (snd w').

Lemma D_eq (f : R -> R) x l l' : is_derive f x l -> l = l' -> is_derive f x l'.
Proof. intros H <-; auto. Qed.
Ltac req := match goal with |- @eq _ ?a ?b => change (@eq R a b) end.
Lemma D_lin a b : is_derive (fun t => a + t * b) 0 b.
Proof. auto_derive; [auto | ring]. Qed.
Lemma dp_ft g D q p : dpath (fun t => from_to (shift g D t) q p) (from_to D q p).
Proof. split; unfold from_to; simpl; auto_derive; auto; ring. Qed.
Lemma ft_0 g D q p : from_to (shift g D 0) q p = from_to g q p.
Proof. unfold from_to; simpl. f_equal; ring. Qed.
Lemma D_half_sq (f : R -> R) l : is_derive f 0 l -> is_derive (fun t => sq (f t) / 2) 0 (f 0 * l).
Proof.
  intros H. unfold sq. evar_last.
  - apply (is_derive_ext (fun t => / 2 * (f t * f t))).
    + intros t. change (/ 2 * (f t * f t) = f t * f t / 2). field.
    + apply is_derive_scal. apply (is_derive_mult f f 0 l l); auto. intros; apply Rmult_comm.
  - unfold plus, mult; simpl. lra.
Qed.
Lemma dp_dot w w' z z' : dpath w w' -> dpath z z' ->
  is_derive (fun t => dotR (w t) (z t)) 0 (dotR w' (z 0) + dotR (w 0) z').
Proof.
  intros [A1 A2] [B1 B2]. unfold dotR. evar_last.
  - apply @is_derive_plus; (apply @is_derive_mult; [eassumption|eassumption|intros; apply Rmult_comm]).
  - unfold plus, mult; simpl. ring.
Qed.
Lemma dp_cross w w' z z' : dpath w w' -> dpath z z' ->
  is_derive (fun t => crossR (w t) (z t)) 0 (crossR w' (z 0) + crossR (w 0) z').
Proof.
  intros [A1 A2] [B1 B2]. unfold crossR. evar_last.
  - apply @is_derive_minus; (apply @is_derive_mult; [eassumption|eassumption|intros; apply Rmult_comm]).
  - unfold minus, plus, opp, mult; simpl. ring.
Qed.
Lemma dp_len w w' : dpath w w' -> len (w 0) <> 0 -> is_derive (fun t => len (w t)) 0 (dotR (w 0) w' / len (w 0)).
Proof.
  intros H Hz. pose proof (dp_dot _ _ _ _ H H) as Hd. unfold len at 1.
  assert (P : 0 < fst (w 0) * fst (w 0) + snd (w 0) * snd (w 0)).
  { rewrite <- len_sq. pose proof (len_nonneg (w 0)). nra. }
  evar_last.
  - apply (is_derive_comp sqrt (fun t => dotR (w t) (w t)) 0).
    + apply is_derive_Reals. apply derivable_pt_lim_sqrt. exact P.
    + exact Hd.
  - unfold scal; simpl; unfold mult; simpl. change (sqrt (dotR (w 0) (w 0))) with (len (w 0)). 
    unfold dotR. field. auto.
Qed.
Lemma dp_quot (f : R -> R) l w w' z z' : is_derive f 0 l -> dpath w w' -> dpath z z' ->
  len (w 0) <> 0 -> len (z 0) <> 0 ->
  is_derive (fun t => f t / (len (w t) * len (z t))) 0
    (l / (len (w 0) * len (z 0)) - f 0 * dotR (w 0) w' / (len (w 0) * len (w 0) * len (w 0) * len (z 0))
       - f 0 * dotR (z 0) z' / (len (w 0) * len (z 0) * len (z 0) * len (z 0))).
Proof.
  intros Hf Hw Hz Nw Nz. pose proof (dp_len _ _ Hw Nw) as Lw. pose proof (dp_len _ _ Hz Nz) as Lz.
  evar_last.
  - apply is_derive_div; [exact Hf | apply (is_derive_mult (fun t => len (w t)) (fun t => len (z t))); [exact Lw | exact Lz | intros; apply Rmult_comm]|].
    simpl. now apply Rmult_integral_contrapositive_currified.
  - unfold plus, mult; simpl. field. auto.
Qed.
Lemma acos_deriv x : -1 < x < 1 -> is_derive acos x (-1 / sqrt (1 - x * x)).
Proof.
  intros H. apply is_derive_Reals. pose proof (derive_pt_acos x H) as E.
  change (1 - x * x) with (1 - Rsqr x). rewrite <- E. apply derive_pt_eq_1 with (derivable_pt_acos x H). reflexivity.
Qed.
Lemma near_gt (f : R -> R) l a : is_derive f 0 l -> a < f 0 -> locally 0 (fun t => a < f t).
Proof.
  intros H Hlt. assert (C : continuous f 0) by (apply (ex_derive_continuous f 0); exists l; exact H).
  apply (C (fun y => a < y)). now apply open_gt.
Qed.
Lemma D_on_line h D l w : pairT h D (on_line l w) = dotR w (dirR D h l).
Proof. unfold pairT, on_line, dotR, dirR, from_to; simpl. ring. Qed.
Lemma D_ngrad u a b w : len u <> 0 ->
  dotR (ngrad u a b) w = (a * fst w + b * snd w) / len u - (a * fst u + b * snd u) * dotR u w / (len u * len u * len u).
Proof. intros H. unfold dotR, ngrad; simpl. field. auto. Qed.

Lemma loss_deriv g D h c : nondegenerate g h c -> eqlen_ok g h c ->
  is_derive (fun t => lossR (shift g D t) h c) 0 (pairing h D (rowsR g h c)).
Proof.
  intros Hn He. unfold pairing. unfold lossR.
  destruct c; cbn [residual2 rowsR nondegenerate eqlen_ok] in *.
  - (* angle *)
    destruct Hn as (T1 & T2 & X).
    set (U := fun t => from_to (shift g D t) pm p1). set (V := fun t => from_to (shift g D t) pm p2).
    assert (U0 : U 0 = from_to g pm p1) by apply ft_0. assert (V0 : V 0 = from_to g pm p2) by apply ft_0.
    pose proof tiny_pos as TP.
    assert (dU := dp_ft g D pm p1 : dpath U _). assert (dV := dp_ft g D pm p2 : dpath V _).
    assert (NU : len (U 0) <> 0) by (rewrite U0; lra). assert (NV : len (V 0) <> 0) by (rewrite V0; lra).
    assert (LU := dp_len _ _ dU NU). assert (LV := dp_len _ _ dV NV).
    apply (is_derive_ext_loc (fun t => sq (acos (dotR (U t) (V t) / (len (U t) * len (V t))) - vx desired) / 2)).
    { assert (A1 := near_gt _ _ tiny LU ltac:(cbv beta; rewrite U0; auto)).
      assert (A2 := near_gt _ _ tiny LV ltac:(cbv beta; rewrite V0; auto)).
      generalize (filter_and _ _ A1 A2). apply filter_imp. intros t [B1 B2]. unfold angleR. fold (U t) (V t).
      destruct (Rlt_dec (len (U t)) tiny); [lra|]. destruct (Rlt_dec (len (V t)) tiny); [lra|]. auto. }
    eapply D_eq.
    + apply (D_half_sq (fun t => acos (dotR (U t) (V t) / (len (U t) * len (V t))) - vx desired)).
      apply @is_derive_minus; [|apply @is_derive_const].
      apply (is_derive_comp acos (fun t => dotR (U t) (V t) / (len (U t) * len (V t)))).
      * apply acos_deriv. rewrite U0, V0.
        pose proof (sin2_pos (from_to g pm p1) (from_to g pm p2) ltac:(lra) ltac:(lra) X) as S. split; nra.
      * apply (dp_quot (fun t => dotR (U t) (V t)) _ U _ V _ (dp_dot _ _ _ _ dU dV) dU dV NU NV).
    + rewrite U0, V0. unfold scal, minus, plus, opp, zero; simpl; unfold mult; simpl.
      set (u := from_to g pm p1) in *. set (v := from_to g pm p2) in *.
      change (cx g p1 - cx g pm) with (fst u). change (cy g p1 - cy g pm) with (snd u).
      change (cx g p2 - cx g pm) with (fst v). change (cy g p2 - cy g pm) with (snd v).
      pose proof (sin2_pos u v ltac:(lra) ltac:(lra) X) as S. pose proof (sqrt_lt_R0 _ S) as S'.
      set (ct := dotR u v / (len u * len v)) in *. set (sn := sqrt (1 - ct * ct)) in *.
      unfold pairT; cbn [fst snd nth].
      replace (acos ct - vx desired) with (acos ct + - vx desired) by ring.
      generalize (acos ct + - vx desired) as e. intros e. clearbody sn ct.
      unfold dotR, from_to. cbn [fst snd]. rewrite U0 in NU. rewrite V0 in NV.
      clearbody u v. set (nu := len u) in *. set (nv := len v) in *. clearbody nu nv.
      field. repeat split; auto; lra.
  - (* arc end *)
    unfold end_pt; cbn [fst snd]. set (ac := a_center (getA h a)). simpl.
    unfold sq. auto_derive; [auto|]. fold ac. rewrite !Rmult_0_l, !Rplus_0_r. unfold pairT; cbn [fst snd nth]; fold ac. field.
  - unfold start_pt; cbn [fst snd]. set (ac := a_center (getA h a)). simpl.
    unfold sq. auto_derive; [auto|]. fold ac. rewrite !Rmult_0_l, !Rplus_0_r. unfold pairT; cbn [fst snd nth]; fold ac. field.
  - (* euclid *)
    pose proof tiny_pos as TP.
    set (U := fun t => from_to (shift g D t) p2 p1).
    assert (U0 : U 0 = from_to g p2 p1) by apply ft_0.
    assert (dU := dp_ft g D p2 p1 : dpath U _).
    assert (NU : len (U 0) <> 0) by (rewrite U0; lra).
    assert (LU := dp_len _ _ dU NU).
    eapply D_eq.
    + apply (D_half_sq (fun t => len (U t) - vx desired)). apply @is_derive_minus; [exact LU | apply @is_derive_const].
    + rewrite U0 in *. unfold minus, plus, opp, zero; simpl. unfold pairT, dotR; cbn [fst snd nth].
      generalize dependent (len (from_to g p2 p1)). intros. unfold from_to; simpl. field. auto.
  - unfold sq; simpl. auto_derive; [auto|]. unfold pairT; simpl. field.
  - unfold sq; simpl. auto_derive; [auto|]. unfold pairT; simpl. field.
  - unfold sq; simpl. auto_derive; [auto|]. unfold pairT; simpl. field.
  - (* equal length *)
    destruct Hn as [X1 X2]. apply len_pos in X1, X2.
    set (U := fun t => dirR (shift g D t) h l1). set (V := fun t => dirR (shift g D t) h l2).
    assert (U0 : U 0 = dirR g h l1) by apply ft_0. assert (V0 : V 0 = dirR g h l2) by apply ft_0.
    assert (dU := dp_ft g D _ _ : dpath U (dirR D h l1)). assert (dV := dp_ft g D _ _ : dpath V (dirR D h l2)).
    assert (NU : len (U 0) <> 0) by (rewrite U0; lra). assert (NV : len (V 0) <> 0) by (rewrite V0; lra).
    eapply D_eq.
    + apply (D_half_sq (fun t => len (U t) - len (V t))). apply @is_derive_minus; [exact (dp_len _ _ dU NU) | exact (dp_len _ _ dV NV)].
    + rewrite U0, V0 in *. cbn [map sumR fold_right]. rewrite !D_on_line. unfold minus, plus, opp; cbn -[dirR dotR len fst snd]. unfold dotR; cbn [fst snd].
      field. auto.
  - unfold sq; simpl. unfold pairT; simpl. auto_derive; [auto|]. field.
  - unfold sq; simpl. unfold pairT; simpl. auto_derive; [auto|]. field.
  - (* parallel *)
    destruct Hn as [X1 X2]. apply len_pos in X1, X2.
    set (U := fun t => dirR (shift g D t) h l1). set (V := fun t => dirR (shift g D t) h l2).
    assert (U0 : U 0 = dirR g h l1) by apply ft_0. assert (V0 : V 0 = dirR g h l2) by apply ft_0.
    assert (dU := dp_ft g D _ _ : dpath U (dirR D h l1)). assert (dV := dp_ft g D _ _ : dpath V (dirR D h l2)).
    assert (NU : len (U 0) <> 0) by (rewrite U0; lra). assert (NV : len (V 0) <> 0) by (rewrite V0; lra).
    apply (is_derive_ext (fun t => sq (crossR (U t) (V t) / (len (U t) * len (V t))) / 2)).
    { intros t. fold (U t) (V t). req. destruct (Req_EM_T (len (U t)) 0) as [E|E].
      { rewrite E. apply len_zero in E. rewrite E. unfold crossR, sq; simpl. unfold Rdiv. ring. }
      destruct (Req_EM_T (len (V t)) 0) as [E2|E2]; auto.
      rewrite E2. apply len_zero in E2. rewrite E2. unfold crossR, sq; simpl. unfold Rdiv. ring. }
    eapply D_eq.
    + apply (D_half_sq (fun t => crossR (U t) (V t) / (len (U t) * len (V t)))).
      apply (dp_quot (fun t => crossR (U t) (V t)) _ U _ V _ (dp_cross _ _ _ _ dU dV) dU dV NU NV).
    + rewrite U0, V0 in *. cbn [map sumR fold_right]. rewrite !D_on_line, !D_ngrad by auto.
      unfold crossR, dotR; cbn [fst snd]. req. field. auto.
  - destruct Hn as [X1 X2]. apply len_pos in X1, X2.
    set (U := fun t => dirR (shift g D t) h l1). set (V := fun t => dirR (shift g D t) h l2).
    assert (U0 : U 0 = dirR g h l1) by apply ft_0. assert (V0 : V 0 = dirR g h l2) by apply ft_0.
    assert (dU := dp_ft g D _ _ : dpath U (dirR D h l1)). assert (dV := dp_ft g D _ _ : dpath V (dirR D h l2)).
    assert (NU : len (U 0) <> 0) by (rewrite U0; lra). assert (NV : len (V 0) <> 0) by (rewrite V0; lra).
    apply (is_derive_ext (fun t => sq (dotR (U t) (V t) / (len (U t) * len (V t))) / 2)).
    { intros t. fold (U t) (V t). req. destruct (Req_EM_T (len (U t)) 0) as [E|E].
      { rewrite E. apply len_zero in E. rewrite E. unfold dotR, sq; simpl. unfold Rdiv. ring. }
      destruct (Req_EM_T (len (V t)) 0) as [E2|E2]; auto.
      rewrite E2. apply len_zero in E2. rewrite E2. unfold dotR, sq; simpl. unfold Rdiv. ring. }
    eapply D_eq.
    + apply (D_half_sq (fun t => dotR (U t) (V t) / (len (U t) * len (V t)))).
      apply (dp_quot (fun t => dotR (U t) (V t)) _ U _ V _ (dp_dot _ _ _ _ dU dV) dU dV NU NV).
    + rewrite U0, V0 in *. cbn [map sumR fold_right]. rewrite !D_on_line, !D_ngrad by auto.
      unfold dotR; cbn [fst snd]. req. field. auto.
Qed.
