(** * Copies of objects over a history of calls; the two arithmetics; the constant matrices *)
From Coq Require Import List ZArith NArith Arith Bool Lia Reals Lra Floats.SpecFloat.
From Verif Require Import Arith ArithR ArithF Vec Prim Cons Sketch Solve Decomp Api Spec Value ValueSpec
  HeapLemmas SolveLemmas SpecLemmas BookLemmas WfLemmas ValueLemmas.
Import ListNotations.

Section Frame.
Context {F : Type} {A : Arith F}.
Variable pinv : mat F -> F -> pinv_res (mat F).
Notation step := (step pinv).
Notation run := (run pinv).

Definition kept (o : op F) (h h' : heap F) : Prop :=
  (forall k, k < length (h_cons h) -> writes_con k o = false -> getK h' k = getK h k) /\
  (forall c, cell_ok h c -> repoints_cell c o = false -> prim_refs h' c = prim_refs h c).

Lemma kept_struct o h h' : struct_eq h h' -> kept o h h'.
Proof. intros S. split; [intros k _ _; now apply struct_getK | intros c _ _; now apply struct_refs]. Qed.
Lemma kept_refl o h : kept o h h. Proof. split; auto. Qed.
Lemma kept_alloc o h :
  (forall x, kept o h (fst (allocP h x))) /\ (forall x, kept o h (fst (allocL h x))) /\ (forall x, kept o h (fst (allocA h x))) /\
  (forall x, kept o h (fst (allocC h x))) /\ (forall x, kept o h (fst (allocK h x))).
Proof.
  repeat apply conj; intros x; (split; [intros k Hk _ | intros [l|l|l|l] Hc _; cbn in Hc |- *]); cbn; unfold getK, getL, getA, getC; cbn; rewrite ?nth_app_l; auto.
Qed.

Lemma step_kept st o st' r : step st o = (st', r) -> kept o (fst st) (fst st').
Proof.
  destruct st as [h s]. intros H.
  pose proof (kept_alloc o h) as (AP & AL & AA & AC & AK). pose proof (kept_refl o h) as KR.
  destruct o; cbn [Api.step] in H;
  try (apply on_heap_same in H as (_ & H2 & _); rewrite H2; simpl fst; apply kept_struct;
       first [ apply set_data_frame | apply get_gradient_sd | apply get_jacobian_sd | apply solve_frame
             | apply check_gradients_frame | apply psx_struct | apply psy_struct | apply padd_sd
             | apply set_struct | apply update_sd ]).
  - injection H as <- <-. apply (AP (Point2_new x y)).
  - injection H as <- <-. apply (AL (mkLine s0 e)).
  - injection H as <- <-. apply (AA (Arc_new c r0 cw sa ea)).
  - injection H as <- <-. apply (AC (Circle_new c r0)).
  - destruct (con_new_ok c); injection H as <- <-; simpl fst; auto. apply (AK c).
  - destruct (add_primitive h s c); injection H as <- <-; simpl; auto.
  - unfold add_point2 in H; simpl in H. destruct (add_primitive _ s _) as [s' [|]]; injection H as <- <-; apply (AP (Point2_new x y)).
  - unfold add_line in H; simpl in H. destruct (add_primitive _ s _) as [s' [|]]; injection H as <- <-; apply (AL (mkLine s0 e)).
  - unfold add_arc in H; simpl in H. destruct (add_primitive _ s _) as [s' [|]]; injection H as <- <-; apply (AA (Arc_new c r0 cw sa ea)).
  - destruct (add_constraint h s k); injection H as <- <-; simpl; auto.
  - unfold constrain in H. destruct (con_new_ok c); simpl in H.
    + destruct (add_constraint _ s _) as [s' [|]]; injection H as <- <-; apply (AK c).
    + injection H as <- <-; simpl; auto.
  - destruct (delete_primitive s id); injection H as <- <-; simpl; auto.
  - destruct (delete_constraint s k); injection H as <- <-; simpl; auto.
  - injection H as <- <-. apply kept_struct, struct_setP.
  - injection H as <- <-. split; [auto|]. intros [m|m|m|m] Hc E; auto. cbn [repoints_cell pcell_eqb prim_refs fst] in E |- *. unfold Line_set_start. rewrite getL_setL. now rewrite E.
  - injection H as <- <-. split; [auto|]. intros [m|m|m|m] Hc E; auto. cbn [repoints_cell pcell_eqb prim_refs fst] in E |- *. unfold Line_set_end. rewrite getL_setL. now rewrite E.
  - injection H as <- <-. split; [auto|]. intros [m|m|m|m] Hc E; auto. cbn [repoints_cell pcell_eqb prim_refs fst] in E |- *. unfold Arc_set_center. rewrite getA_setA. now rewrite E.
  - injection H as <- <-. split; [auto|]. intros [m|m|m|m] Hc E; auto. cbn [prim_refs fst]. rewrite getA_setA.
    destruct (Nat.eqb l m && Nat.ltb l (length (h_arcs h))) eqn:B; [|reflexivity]. apply andb_true_iff in B as [B _]. apply Nat.eqb_eq in B as <-. reflexivity.
  - injection H as <- <-. split; [auto|]. intros [m|m|m|m] Hc E; auto. cbn [repoints_cell pcell_eqb prim_refs fst] in E |- *. unfold Circle_set_center. rewrite getC_setC. now rewrite E.
  - injection H as <- <-. apply kept_struct, struct_setC; reflexivity.
  - injection H as <- <-. split; [|auto]. intros j Hj E. cbn [writes_con fst] in E |- *. rewrite getK_setK. now rewrite E.
  - destruct (same_kind _ _); injection H as <- <-; simpl; auto. split; [|auto]. intros j Hj E. cbn [writes_con fst] in E |- *. rewrite getK_setK. now rewrite E.
  - injection H as <- <-. apply kept_struct, zero_struct.
Qed.

Lemma run_con st os rs st' k : run st os rs st' -> k < length (h_cons (fst st)) -> Forall (fun o => writes_con k o = false) os ->
  getK (fst st') k = getK (fst st) k.
Proof.
  induction 1 as [st|st o st1 r os rs st' Ho Hs Hr IH]; intros Hk Hos; [reflexivity|].
  inversion_clear Hos as [|? ? N1 N2]. destruct (step_kept _ _ _ _ Hs) as [K _]. rewrite IH; auto.
  apply step_grows in Hs as [G _]. unfold grows in G. lia.
Qed.
Lemma run_refs st os rs st' c : run st os rs st' -> cell_ok (fst st) c -> Forall (fun o => repoints_cell c o = false) os ->
  prim_refs (fst st') c = prim_refs (fst st) c.
Proof.
  induction 1 as [st|st o st1 r os rs st' Ho Hs Hr IH]; intros Hk Hos; [reflexivity|].
  inversion_clear Hos as [|? ? N1 N2]. destruct (step_kept _ _ _ _ Hs) as [_ K]. rewrite IH; auto.
  apply step_grows in Hs as [G _]. now apply (grows_cell (fst st)).
Qed.

Lemma copy_now (h : heap F) c : val_refs (to_primitive h c) = prim_refs h c /\ val_data (to_primitive h c) = prim_data h c /\
  val_grad (to_primitive h c) = prim_grad h c.
Proof. destruct c; repeat split. Qed.
Lemma copy_refs st os rs st' c : run st os rs st' -> cell_ok (fst st) c -> Forall (fun o => repoints_cell c o = false) os ->
  val_refs (to_primitive (fst st) c) = prim_refs (fst st') c.
Proof. intros R C N. rewrite (run_refs _ _ _ _ _ R C N). apply copy_now. Qed.
Lemma copy_line st os rs st' l : run st os rs st' -> cell_ok (fst st) (PLine l) -> Forall (fun o => repoints_cell (PLine l) o = false) os ->
  to_primitive (fst st') (PLine l) = to_primitive (fst st) (PLine l).
Proof.
  intros R C N. pose proof (run_refs _ _ _ _ _ R C N) as E. cbn in E |- *. injection E as E1 E2.
  destruct (getL (fst st') l), (getL (fst st) l). cbn in E1, E2. congruence.
Qed.
Lemma copy_con st os rs st' k : run st os rs st' -> k < length (h_cons (fst st)) -> Forall (fun o => writes_con k o = false) os ->
  con_refs (get_type (fst st) k) = con_refs (getK (fst st') k) /\
  loss_value (fst st') (get_type (fst st) k) = loss_value (fst st') (getK (fst st') k) /\
  update_gradient (get_type (fst st) k) (fst st') = update_gradient (getK (fst st') k) (fst st').
Proof. intros R K N. unfold get_type. rewrite (run_con _ _ _ _ _ R K N). auto. Qed.

(** reflexivity: no NaN among the values compared *)
Lemma self_equal (h : heap F) c :
  primitive_eq h (to_primitive h c) (to_primitive h c) = true <->
  Forall (fun d => Forall (fun x => feq x x = true) (prim_data h d ++ prim_grad h d)) (c :: prim_refs h c).
Proof.
  assert (B : forall b, Bool.eqb b b = true) by (intros []; reflexivity).
  destruct c as [l|l|l|l]; cbn [to_primitive primitive_eq prim_refs prim_data prim_grad app]; unfold line_eq, arc_eq, circle_eq, point_eq;
  rewrite ?B, ?andb_true_iff; repeat rewrite Forall_cons_iff; cbn [prim_data prim_grad app]; repeat rewrite Forall_cons_iff;
  pose proof (Forall_nil (fun x : F => feq x x = true)); 
  pose proof (Forall_nil (fun d : pcell => Forall (fun x : F => feq x x = true) (prim_data h d ++ prim_grad h d))); tauto.
Qed.
End Frame.

(** ** Exact arithmetic *)
Lemma f64_R : comparable (feq (F:=xR)) f64_cmp.
Proof.
  unfold f64_cmp, fge. cbn [feq fle ArithR]. split; intros *;
  repeat match goal with x : xR |- _ => destruct x end; cbn; unfold Rleb, Reqb;
  repeat match goal with |- context [Rle_dec ?a ?b] => destruct (Rle_dec a b) | |- context [Req_EM_T ?a ?b] => destruct (Req_EM_T a b) end; try (intuition discriminate);
  try reflexivity; try (exfalso; lra);
  try (match goal with n : ?a <> ?b |- _ => exfalso; apply n; lra end); intuition (try discriminate; try reflexivity; exfalso; lra).
Qed.
(** ** binary64 *)
Section B64.
Definition skey (x : spec_float) : option (Z * (Z * Z)) :=
  match x with
  | S754_nan => None
  | S754_infinity s => Some (if s then -2 else 2, (0, 0))%Z
  | S754_zero _ => Some (0, (0, 0))%Z
  | S754_finite s m e => Some (if s then (-1, (- e, - Zpos m)) else (1, (e, Zpos m)))%Z
  end.
Definition kcmp (a b : option (Z * (Z * Z))) : option comparison :=
  match a, b with
  | Some x, Some y => then_cmp (Some (Z.compare (fst x) (fst y)))
      (then_cmp (Some (Z.compare (fst (snd x)) (fst (snd y)))) (Some (Z.compare (snd (snd x)) (snd (snd y)))))
  | _, _ => None
  end.
Definition keq (a b : option (Z * (Z * Z))) : bool :=
  match a, b with
  | Some x, Some y => Z.eqb (fst x) (fst y) && (Z.eqb (fst (snd x)) (fst (snd y)) && Z.eqb (snd (snd x)) (snd (snd y)))
  | _, _ => false
  end.
Lemma c_Z : comparable Z.eqb (fun a b => Some (Z.compare a b)).
Proof.
  split; intros *; rewrite ?Z.eqb_eq; try congruence.
  - split; [intros [= H]; now apply Z.compare_eq | intros ->; now rewrite Z.compare_refl].
  - rewrite (Z.compare_antisym a b). destruct (Z.compare a b); cbn; intuition discriminate.
  - intros [= H1] [= H2]. f_equal. change (a < b)%Z in H1. change (b < c)%Z in H2. change (a < c)%Z. lia.
Qed.
Lemma c_key3 : comparable (fun x y : Z * (Z * Z) => Z.eqb (fst x) (fst y) && (Z.eqb (fst (snd x)) (fst (snd y)) && Z.eqb (snd (snd x)) (snd (snd y))))
  (fun x y => then_cmp (Some (Z.compare (fst x) (fst y)))
      (then_cmp (Some (Z.compare (fst (snd x)) (fst (snd y)))) (Some (Z.compare (snd (snd x)) (snd (snd y)))))).
Proof.
  exact (c_then _ _ _ _ (c_pull fst _ _ c_Z) (c_then _ _ _ _ (c_pull (fun x : Z * (Z * Z) => fst (snd x)) _ _ c_Z) (c_pull (fun x : Z * (Z * Z) => snd (snd x)) _ _ c_Z))).
Qed.
Lemma c_option {T} (e : T -> T -> bool) c : comparable e c ->
  comparable (fun a b => match a, b with Some x, Some y => e x y | _, _ => false end) (fun a b => match a, b with Some x, Some y => c x y | _, _ => None end).
Proof.
  intros H. split; intros *; repeat match goal with x : option T |- _ => destruct x end; try (intuition discriminate).
  - apply (eq_symmetric _ _ H).
  - apply (eq_transitive _ _ H).
  - apply (cmp_equal _ _ H).
  - apply (cmp_dual _ _ H).
  - apply (cmp_transitive _ _ H).
  - apply (cmp_congruent _ _ H).
Qed.
Lemma c_key : comparable keq kcmp. Proof. exact (c_option _ _ c_key3). Qed.

Lemma SF_key a b : SFcompare a b = kcmp (skey a) (skey b).
Proof.
  destruct a as [sa|sa| |sa ma ea], b as [sb|sb| |sb mb eb]; try reflexivity; cbn; try (destruct sa); try (destruct sb); try reflexivity; cbn.
  - rewrite Z.compare_opp, (Z.compare_antisym ea eb). destruct (Z.compare ea eb); reflexivity.
  - destruct (Z.compare ea eb); reflexivity.
Qed.
Variable L : libm.
Lemma f64_key a b : f64_cmp (A := ArithF L) a b = kcmp (skey a) (skey b).
Proof.
  unfold f64_cmp, fge. cbn [fle ArithF]. unfold SFleb. rewrite !SF_key. rewrite (c_opp _ _ c_key (skey a) (skey b)).
  destruct (kcmp (skey a) (skey b)) as [[]|]; reflexivity.
Qed.
Lemma f64_B : comparable (feq (Arith := ArithF L)) (f64_cmp (A := ArithF L)).
Proof.
  apply c_ext with (e' := fun a b => keq (skey a) (skey b)) (c' := fun a b => kcmp (skey a) (skey b)).
  - intros a b. cbn [feq ArithF]. unfold SFeqb. rewrite SF_key. destruct (keq (skey a) (skey b)) eqn:E.
    + apply (cmp_equal _ _ c_key) in E. now rewrite E.
    + destruct (kcmp (skey a) (skey b)) as [[]|] eqn:C; try reflexivity. apply (cmp_equal _ _ c_key) in C. congruence.
  - exact f64_key.
  - exact (c_pull skey _ _ c_key).
Qed.
End B64.

(** ** Equal constraints have equal losses (exact arithmetic) *)
Lemma xeq_eq (a b : xR) : feq a b = true -> a = b.
Proof. destruct a, b; cbn; try discriminate; auto. unfold Reqb. destruct (Req_EM_T _ _); [now subst | discriminate]. Qed.
Lemma point_same (p q : point xR) : point_eq p q = true -> p_data p = p_data q.
Proof. unfold point_eq, p_data. rewrite !andb_true_iff. intros [[[E1 E2] _] _]. now rewrite (xeq_eq _ _ E1), (xeq_eq _ _ E2). Qed.
Lemma equal_loss (h : heap xR) c d : con_eq h c d = true -> loss_value h c = loss_value h d.
Proof.
  assert (P : forall l m, cell_eq_point h l m = true -> pdata h l = pdata h m) by (intros l m E; exact (point_same _ _ E)).
  assert (L : forall l m, cell_eq_line h l m = true -> line_start h l = line_start h m /\ line_end h l = line_end h m).
  { intros l m E. unfold cell_eq_line, line_eq in E. apply andb_true_iff in E as [E1 E2]. split; [exact (point_same _ _ E1) | exact (point_same _ _ E2)]. }
  assert (R : forall l m, cell_eq_arc h l m = true -> arc_start_point h (getA h l) = arc_start_point h (getA h m) /\
                                                      arc_end_point h (getA h l) = arc_end_point h (getA h m)).
  { intros l m E. unfold cell_eq_arc, arc_eq in E. rewrite !andb_true_iff in E. destruct E as [[[E0 [[E1 E2] E3]] _] _].
    apply point_same in E0. unfold p_data in E0. apply xeq_eq in E1, E2, E3. unfold arc_start_point, arc_end_point.
    pose proof (f_equal fst E0) as X. pose proof (f_equal snd E0) as Y. cbn [fst snd] in X, Y. now rewrite X, Y, E1, E2, E3. }
  destruct c, d; try discriminate; cbn [con_eq loss_value]; rewrite ?andb_true_iff; intros H;
  repeat match goal with
  | H : _ /\ _ |- _ => destruct H
  | H : cell_eq_point h _ _ = true |- _ => apply P in H
  | H : cell_eq_line h _ _ = true |- _ => apply L in H
  | H : cell_eq_arc h _ _ = true |- _ => apply R in H
  | H : feq _ _ = true |- _ => apply xeq_eq in H
  end; unfold current_angle, current_distance, current_hdistance, current_vdistance;
  repeat match goal with H : ?a = ?b |- _ => rewrite H; clear H end; reflexivity.
Qed.

(** ** The constant matrices are the Jacobians of linear maps *)
Local Open Scope R_scope.
Ltac row := unfold rowmul, mvec, mtrans, mcol, f0, f1; cbn [map seq nth flit ArithR]; unfold dot1, sum1; cbn [map2 fold_left fmul fadd ArithR xmul xadd];
  repeat match goal with |- _ :: _ = _ :: _ => apply f_equal2; [apply f_equal; try (simpl; field)|] end; try reflexivity.
Lemma arc_matrices x y r s e :
  let v := map Fin [x; y; r; s; e] in
  mvec arc_center_gradient v = map Fin [x; y] /\ mvec arc_radius_gradient v = [Fin r] /\
  mvec arc_start_angle_gradient v = [Fin s] /\ mvec arc_end_angle_gradient v = [Fin e].
Proof. unfold arc_center_gradient, arc_radius_gradient, arc_start_angle_gradient, arc_end_angle_gradient. repeat split; row. Qed.
Lemma circle_matrices x y r :
  let v := map Fin [x; y; r] in mvec circle_center_gradient v = map Fin [x; y] /\ mvec circle_radius_gradient v = [Fin r].
Proof. unfold circle_center_gradient, circle_radius_gradient. repeat split; row. Qed.
Lemma arc_rows a b :
  rowmul 5 (map Fin [a; b]) arc_center_gradient = map Fin [a; b; 0; 0; 0] /\
  rowmul 5 [Fin a] arc_radius_gradient = map Fin [0; 0; a; 0; 0] /\
  rowmul 5 [Fin a] arc_start_angle_gradient = map Fin [0; 0; 0; a; 0] /\
  rowmul 5 [Fin a] arc_end_angle_gradient = map Fin [0; 0; 0; 0; a].
Proof. unfold arc_center_gradient, arc_radius_gradient, arc_start_angle_gradient, arc_end_angle_gradient. repeat split; row. Qed.
Lemma circle_rows a b :
  rowmul 3 (map Fin [a; b]) circle_center_gradient = map Fin [a; b; 0] /\
  rowmul 3 [Fin a] circle_radius_gradient = map Fin [0; 0; a].
Proof. unfold circle_center_gradient, circle_radius_gradient. repeat split; row. Qed.

(** ** What [<] means on points *)
Lemma point_less (p q : point xR) a b c d : p_data p = (Fin a, Fin b) -> p_data q = (Fin c, Fin d) -> (a, b) <> (c, d) ->
  (point_cmp p q = Some Lt <-> a <= c /\ b <= d).
Proof.
  unfold p_data. intros E1 E2 N. unfold point_cmp. rewrite vec2_join.
  pose proof (f_equal fst E1) as X1. pose proof (f_equal snd E1) as X2. pose proof (f_equal fst E2) as X3. pose proof (f_equal snd E2) as X4.
  cbn [fst snd] in *. rewrite X1, X2, X3, X4. unfold f64_cmp, fge. cbn [fle ArithR xle]. unfold Rleb.
  destruct (Rle_dec a c), (Rle_dec c a), (Rle_dec b d), (Rle_dec d b); cbn; try (exfalso; lra);
  try (exfalso; apply N; f_equal; lra); intuition (try discriminate; lra).
Qed.

Lemma arc_jacobians (h : heap xR) l : let a := getA h l in let v := prim_data h (PPoint (a_center a)) ++ prim_data h (PArc l) in
  all_finite v = true ->
  mvec arc_center_gradient v = prim_data h (PPoint (a_center a)) /\ mvec arc_radius_gradient v = [a_radius a] /\
  mvec arc_start_angle_gradient v = [a_sa a] /\ mvec arc_end_angle_gradient v = [a_ea a].
Proof.
  cbv zeta. cbn [prim_data app all_finite forallb ffin ArithR]. generalize (getP h (a_center (getA h l))) as p. generalize (getA h l) as a.
  intros [? [] [] [] ? ? ? ?] [[] [] ? ?]; cbn; try discriminate. intros _. apply (arc_matrices r2 r3 r r0 r1).
Qed.
Lemma circle_jacobians (h : heap xR) l : let c := getC h l in let v := prim_data h (PPoint (c_center c)) ++ prim_data h (PCircle l) in
  all_finite v = true ->
  mvec circle_center_gradient v = prim_data h (PPoint (c_center c)) /\ mvec circle_radius_gradient v = [c_radius c].
Proof.
  cbv zeta. cbn [prim_data app all_finite forallb ffin ArithR]. generalize (getP h (c_center (getC h l))) as p. generalize (getC h l) as a.
  intros [? [] ?] [[] [] ? ?]; cbn; try discriminate. intros _. apply (circle_matrices r0 r1 r).
Qed.
