(** * A set of numbers closed under the arithmetic is closed under every call *)
From Coq Require Import List ZArith NArith Arith Bool Lia.
From Verif Require Import Arith Vec Prim Cons Sketch Solve Api Spec SerdeSpec SolverSpec NumSpec.
Import ListNotations.

Section Closed.
Context {F : Type} {A : Arith F}.
Variable V : F -> Prop.
Record closed : Prop := {
  cl_add : forall x y, V x -> V y -> V (x +f y);
  cl_sub : forall x y, V x -> V y -> V (x -f y);
  cl_mul : forall x y, V x -> V y -> V (x *f y);
  cl_div : forall x y, V x -> V y -> V (x /f y);
  cl_neg : forall x, V x -> V (fneg x);
  cl_abs : forall x, V x -> V (fabs x);
  cl_sqrt : forall x, V x -> V (fsqrt x);
  cl_sin : forall x, V x -> V (fsin x);
  cl_cos : forall x, V x -> V (fcos x);
  cl_acos : forall x, V x -> V (facos x);
  cl_lit : forall m k, V (flit m k);
  cl_inf : V finf }.
Hypothesis C : closed.

Definition VV := Forall V.
Definition VM := Forall VV.
Lemma v0 : V f0. Proof. apply C. Qed.
Lemma v1 : V f1. Proof. apply C. Qed.
Definition Kadd := cl_add C. Definition Ksub := cl_sub C. Definition Kmul := cl_mul C. Definition Kdiv := cl_div C.
Definition Kneg := cl_neg C. Definition Kabs := cl_abs C. Definition Ksqrt := cl_sqrt C. Definition Ksin := cl_sin C.
Definition Kcos := cl_cos C. Definition Kacos := cl_acos C. Definition Klit := cl_lit C.
Hint Resolve v0 v1 Kadd Ksub Kmul Kdiv Kneg Kabs Ksqrt Ksin Kcos Kacos Klit : cl.

Lemma v_half : V fhalf. Proof. apply C. Qed.
Lemma v_m1 : V fm1. Proof. unfold fm1. auto with cl. Qed.
Lemma v_max x y : V x -> V y -> V (fmax x y).
Proof. intros. unfold fmax. destruct (flt x y); auto. destruct (feq x x); auto. Qed.
Lemma v_clamp a b x : V a -> V b -> V x -> V (fclamp a b x).
Proof. intros. unfold fclamp. destruct (flt x a); destruct (fgt _ b); auto. Qed.
Hint Resolve v_half v_m1 v_max v_clamp : cl.

Lemma VV_map2 f u v : (forall x y, V x -> V y -> V (f x y)) -> VV u -> VV v -> VV (map2 f u v).
Proof. intros Hf Hu. revert v. induction Hu; intros [|y v] Hv; simpl; try constructor; inversion Hv; subst; auto. now apply IHHu. Qed.
Lemma VV_map f u : (forall x, V x -> V (f x)) -> VV u -> VV (map f u).
Proof. intros Hf Hu. induction Hu; simpl; constructor; auto. Qed.
Lemma VV_nth i u d : VV u -> V d -> V (nth i u d).
Proof. intros Hu Hd. destruct (nth_in_or_default i u d) as [H| ->]; auto. eapply Forall_forall in Hu; eauto. Qed.
Lemma V_fold u a : V a -> VV u -> V (fold_left fadd u a).
Proof. intros Ha Hu. revert a Ha. induction Hu; simpl; auto with cl. Qed.
Lemma VV_add u v : VV u -> VV v -> VV (vadd u v). Proof. apply VV_map2; auto with cl. Qed.
Lemma VV_sub u v : VV u -> VV v -> VV (vsub u v). Proof. apply VV_map2; auto with cl. Qed.
Lemma VV_neg u : VV u -> VV (vneg u). Proof. apply VV_map; auto with cl. Qed.
Lemma VV_scale a u : V a -> VV u -> VV (vscale a u). Proof. intros. apply VV_map; auto with cl. Qed.
Lemma VV_divs a u : V a -> VV u -> VV (vdivs u a). Proof. intros. apply VV_map; auto with cl. Qed.
Lemma VV_muls a u : V a -> VV u -> VV (vmuls u a). Proof. intros. apply VV_map; auto with cl. Qed.
Lemma V_lanes k : forall a0 a1 a2 a3 a4 a5 a6 a7 p, length p <= k -> V a0 -> V a1 -> V a2 -> V a3 -> V a4 -> V a5 -> V a6 -> V a7 -> VV p ->
  V (sum_lanes a0 a1 a2 a3 a4 a5 a6 a7 p).
Proof.
  induction k as [|k IH]; intros a0 a1 a2 a3 a4 a5 a6 a7 p L H0 H1 H2 H3 H4 H5 H6 H7 Hp.
  - destruct p; [|inversion L]. cbn [sum_lanes]. apply V_fold; auto 10 with cl.
  - do 8 (destruct p as [|? p]; [cbn [sum_lanes]; apply V_fold; auto 10 with cl|]). cbn [sum_lanes].
    do 8 (apply Forall_cons_iff in Hp as [? Hp]). apply IH; auto with cl. simpl in L. lia.
Qed.
Lemma V_dot u v : VV u -> VV v -> V (vdot u v). Proof. intros. apply (V_lanes _ _ _ _ _ _ _ _ _ _ (le_n _)); auto with cl. apply VV_map2; auto with cl. Qed.
Lemma V_sum u : VV u -> V (vsum u). Proof. intros. apply V_fold; auto with cl. Qed.
Lemma V_norm u : VV u -> V (vnorm u). Proof. intros. unfold vnorm. apply C, V_dot; auto. Qed.
Lemma VV_axpy a x b y : V a -> V b -> VV x -> VV y -> VV (vaxpy a x b y).
Proof. intros. apply VV_map2; auto with cl. Qed.
Lemma V_sum1 u : VV u -> V (sum1 u). Proof. intros H. destruct H; simpl; auto with cl. apply V_fold; auto. Qed.
Lemma V_dot1 u v : VV u -> VV v -> V (dot1 u v). Proof. intros. apply V_sum1, VV_map2; auto with cl. Qed.
Lemma VM_ident n : VM (mident n).
Proof.
  apply Forall_forall. intros r Hr. apply in_map_iff in Hr as (i & <- & _). apply Forall_forall.
  intros x Hx. apply in_map_iff in Hx as (j & <- & _). destruct (_ =? _); auto with cl.
Qed.
Lemma VM_neg m : VM m -> VM (mneg m). Proof. intros H. apply Forall_map. eapply Forall_impl; [|exact H]. apply VV_neg. Qed.
Lemma VM_scale a m : V a -> VM m -> VM (mscale a m). Proof. intros Ha H. apply Forall_map. eapply Forall_impl; [|exact H]. intros. now apply VV_scale. Qed.
Lemma VM_add m n : VM m -> VM n -> VM (madd m n).
Proof. intros H. revert n. induction H; intros [|y n] Hn; simpl; try constructor; inversion Hn; subst; auto. now apply VV_add. now apply IHForall. Qed.
Lemma VV_mvec m v : VM m -> VV v -> VV (mvec m v).
Proof. intros H Hv. apply Forall_map. eapply Forall_impl; [|exact H]. intros. now apply V_dot1. Qed.
Lemma VM_trans n m : VM m -> VM (mtrans n m).
Proof.
  intros H. apply Forall_map, Forall_forall. intros j _. apply Forall_map. eapply Forall_impl; [|exact H].
  intros. apply VV_nth; auto with cl.
Qed.
Lemma VV_rowmul n r m : VV r -> VM m -> VV (rowmul n r m).
Proof. intros Hr Hm. apply Forall_map. eapply Forall_impl; [|apply VM_trans, Hm]. intros. now apply V_dot1. Qed.
Lemma VM_mul n a b : VM a -> VM b -> VM (mmul n a b).
Proof. intros Ha Hb. apply Forall_map. eapply Forall_impl; [|exact Ha]. intros. now apply VV_rowmul. Qed.
Lemma VM_ger al x y be h : V al -> V be -> VV x -> VV y -> VM h -> VM (mger al x y be h).
Proof.
  intros Ha Hb Hx Hy. revert h. induction Hx; intros [|r h] Hh; simpl; try constructor; inversion Hh; subst; auto.
  - apply VV_map2; auto with cl.
  - now apply IHHx.
Qed.
Hint Resolve VV_add VV_sub VV_neg VV_scale VV_divs VV_muls V_dot V_sum V_norm VV_axpy V_dot1 VM_ident VM_neg VM_scale VM_add VV_mvec VM_trans VV_rowmul VM_mul VM_ger : cl.

(** ** The heap *)
Definition pV (p : point F) := VV (point_nums p).
Definition aV (a : arc F) := VV (arc_nums a).
Definition cV (c : circle F) := VV (circle_nums c).
Definition kV (c : con F) := VV (con_params c).
Definition hV (h : heap F) : Prop := Forall pV (h_pts h) /\ Forall aV (h_arcs h) /\ Forall cV (h_circs h) /\ Forall kV (h_cons h).
Lemma hV_nums h : hV h <-> Forall V (heap_nums h).
Proof.
  unfold heap_nums. rewrite !Forall_app, !Forall_flat_map. unfold hV, pV, aV, cV, kV, VV. tauto.
Qed.
Ltac inv4 := repeat match goal with H : Forall _ (_ :: _) |- _ => inversion H; clear H; subst | H : VV (_ :: _) |- _ => inversion H; clear H; subst end.
Lemma getP_V h l : hV h -> pV (getP h l).
Proof.
  intros (H & _). unfold getP. destruct (nth_in_or_default l (h_pts h) pt0) as [I| ->]; [eapply Forall_forall in H; eauto|].
  repeat constructor; auto with cl.
Qed.
Lemma getA_V h l : hV h -> aV (getA h l).
Proof.
  intros (_ & H & _). unfold getA. destruct (nth_in_or_default l (h_arcs h) arc0) as [I| ->]; [eapply Forall_forall in H; eauto|].
  repeat constructor; auto with cl.
Qed.
Lemma getC_V h l : hV h -> cV (getC h l).
Proof.
  intros (_ & _ & H & _). unfold getC. destruct (nth_in_or_default l (h_circs h) circ0) as [I| ->]; [eapply Forall_forall in H; eauto|].
  repeat constructor; auto with cl.
Qed.
Lemma getK_V h l : hV h -> kV (getK h l).
Proof.
  intros (_ & _ & _ & H). unfold getK. destruct (nth_in_or_default l (h_cons h) con0) as [I| ->]; [eapply Forall_forall in H; eauto|].
  constructor.
Qed.
Lemma px h l : hV h -> V (p_x (getP h l)). Proof. intros H. apply (getP_V h l) in H. unfold pV, point_nums in H. inv4. auto. Qed.
Lemma py h l : hV h -> V (p_y (getP h l)). Proof. intros H. apply (getP_V h l) in H. unfold pV, point_nums in H. inv4. auto. Qed.
Lemma pgx h l : hV h -> V (p_gx (getP h l)). Proof. intros H. apply (getP_V h l) in H. unfold pV, point_nums in H. inv4. auto. Qed.
Lemma pgy h l : hV h -> V (p_gy (getP h l)). Proof. intros H. apply (getP_V h l) in H. unfold pV, point_nums in H. inv4. auto. Qed.
Lemma aall h l : hV h -> let a := getA h l in V (a_radius a) /\ V (a_sa a) /\ V (a_ea a) /\ V (a_gr a) /\ V (a_gsa a) /\ V (a_gea a).
Proof. intros H a. apply (getA_V h l) in H. unfold aV, arc_nums in H. fold a in H. inv4. auto 10. Qed.
Lemma call_ h l : hV h -> V (c_radius (getC h l)) /\ V (c_gr (getC h l)).
Proof. intros H. apply (getC_V h l) in H. unfold cV, circle_nums in H. inv4. auto. Qed.
Hint Resolve px py pgx pgy : cl.

Lemma lset_V {T} (Q : T -> Prop) l i x : Forall Q l -> Q x -> Forall Q (lset l i x).
Proof. intros H Hx. revert i. induction H; intros [|i]; simpl; constructor; auto. Qed.
Lemma setP_V h l p : hV h -> pV p -> hV (setP h l p).
Proof. intros (H1 & H2 & H3 & H4) Hp. split; [now apply lset_V|]. auto. Qed.
Lemma setL_V h l x : hV h -> hV (setL h l x). Proof. auto. Qed.
Lemma setA_V h l a : hV h -> aV a -> hV (setA h l a).
Proof. intros (H1 & H2 & H3 & H4) Ha. split; [auto|]. split; [now apply lset_V|]. auto. Qed.
Lemma setC_V h l c : hV h -> cV c -> hV (setC h l c).
Proof. intros (H1 & H2 & H3 & H4) Hc. do 2 (split; [auto|]). split; [now apply lset_V|]. auto. Qed.
Lemma setK_V h l c : hV h -> kV c -> hV (setK h l c).
Proof. intros (H1 & H2 & H3 & H4) Hc. do 3 (split; [auto|]). now apply lset_V. Qed.
Lemma app1 {T} (Q : T -> Prop) l x : Forall Q l -> Q x -> Forall Q (l ++ [x]).
Proof. intros. apply Forall_app; auto. Qed.
Lemma allocP_V h p : hV h -> pV p -> hV (fst (allocP h p)).
Proof. intros (H1 & H2 & H3 & H4) Hp. split; [now apply app1|]. auto. Qed.
Lemma allocA_V h p : hV h -> aV p -> hV (fst (allocA h p)).
Proof. intros (H1 & H2 & H3 & H4) Hp. split; [auto|]. split; [now apply app1|]. auto. Qed.
Lemma allocC_V h p : hV h -> cV p -> hV (fst (allocC h p)).
Proof. intros (H1 & H2 & H3 & H4) Hp. do 2 (split; [auto|]). split; [now apply app1|]. auto. Qed.
Lemma allocK_V h p : hV h -> kV p -> hV (fst (allocK h p)).
Proof. intros (H1 & H2 & H3 & H4) Hp. do 3 (split; [auto|]). now apply app1. Qed.
Ltac nums := unfold pV, aV, cV, kV, point_nums, arc_nums, circle_nums, VV; cbn [p_x p_y p_gx p_gy a_radius a_sa a_ea a_gr a_gsa a_gea c_radius c_gr];
  repeat constructor; auto with cl.

(** ** Losses and gradient rows *)
Lemma pdata_V h l : hV h -> V (fst (pdata h l)) /\ V (snd (pdata h l)).
Proof. intros H. unfold pdata, p_data. simpl. auto with cl. Qed.
Definition V2 (p : F * F) := V (fst p) /\ V (snd p).
Lemma V2_sub p q : V2 p -> V2 q -> V2 (v2sub p q). Proof. intros [] []. split; simpl; auto with cl. Qed.
Lemma V_v2dot p q : V2 p -> V2 q -> V (v2dot p q). Proof. intros [] []. unfold v2dot. auto with cl. Qed.
Lemma V_v2norm2 p : V2 p -> V (v2norm2 p). Proof. intros. now apply V_v2dot. Qed.
Lemma V_v2norm p : V2 p -> V (v2norm p). Proof. intros. unfold v2norm. apply C. now apply V_v2norm2. Qed.
Lemma V2_normalize p : V2 p -> V2 (v2normalize p).
Proof. intros H. pose proof (V_v2norm p H). destruct H. split; simpl; auto with cl. Qed.
Lemma VV_row p : V2 p -> VV (v2row p). Proof. intros []. repeat constructor; auto. Qed.
Lemma V2_pdata h l : hV h -> V2 (pdata h l). Proof. apply pdata_V. Qed.
Lemma V2_start h l : hV h -> V2 (line_start h l). Proof. intros. now apply V2_pdata. Qed.
Lemma V2_end h l : hV h -> V2 (line_end h l). Proof. intros. now apply V2_pdata. Qed.
Lemma V2_astart h l : hV h -> V2 (arc_start_point h (getA h l)).
Proof. intros H. destruct (aall h l H) as (? & ? & ? & ?). split; simpl; auto 8 with cl. Qed.
Lemma V2_aend h l : hV h -> V2 (arc_end_point h (getA h l)).
Proof. intros H. destruct (aall h l H) as (? & ? & ? & ?). split; simpl; auto 8 with cl. Qed.
Lemma V_fst p : V2 p -> V (fst p). Proof. now intros []. Qed.
Lemma V_snd p : V2 p -> V (snd p). Proof. now intros []. Qed.
Lemma V2_pair x y : V x -> V y -> V2 (x, y). Proof. now split. Qed.
Hint Resolve V2_sub V_v2dot V_v2norm2 V_v2norm V2_normalize VV_row V2_pdata V2_start V2_end V2_astart V2_aend V_fst V_snd V2_pair : cl.
Lemma VM_point : VM point_gradient. Proof. unfold point_gradient, VM, VV. repeat constructor; auto with cl. Qed.
Lemma VM_sg : VM start_gradient. Proof. unfold start_gradient, VM, VV. repeat constructor; auto with cl. Qed.
Lemma VM_eg : VM end_gradient. Proof. unfold end_gradient, VM, VV. repeat constructor; auto with cl. Qed.
Lemma VM_ems : VM end_minus_start. Proof. unfold end_minus_start, end_gradient, start_gradient. simpl. unfold vsub; simpl. unfold VM, VV. repeat constructor; auto with cl. Qed.
Lemma VM_norm p : V2 p -> VM (normalize_gradient p).
Proof. intros H. pose proof (V_v2norm p H). pose proof (V_v2norm2 p H). destruct H. unfold normalize_gradient, VM, VV. repeat constructor; auto 8 with cl. Qed.
Lemma VM_as h l : hV h -> VM (arc_start_point_gradient (getA h l)).
Proof. intros H. destruct (aall h l H) as (? & ? & ? & ?). unfold arc_start_point_gradient, VM, VV. repeat constructor; auto 8 with cl. Qed.
Lemma VM_ae h l : hV h -> VM (arc_end_point_gradient (getA h l)).
Proof. intros H. destruct (aall h l H) as (? & ? & ? & ?). unfold arc_end_point_gradient, VM, VV. repeat constructor; auto 8 with cl. Qed.
Lemma VV_nil : VV []. Proof. constructor. Qed.
Lemma VV_cons x l : V x -> VV l -> VV (x :: l). Proof. now constructor. Qed.
Hint Resolve VM_point VM_sg VM_eg VM_ems VM_norm VM_as VM_ae VV_nil VV_cons : cl.
Lemma V_half_sq x : V x -> V (half_sq x). Proof. intros. unfold half_sq. auto with cl. Qed.
Hint Resolve V_half_sq : cl.
Lemma V_angle h a b c : hV h -> V (current_angle h a b c).
Proof. intros H. unfold current_angle. destruct (_ || _); auto with cl. destruct (negb _); auto 12 with cl. Qed.
Hint Resolve V_angle : cl.
Lemma loss_V h c : hV h -> kV c -> V (loss_value h c).
Proof.
  intros H Hc. destruct c; cbn [loss_value]; unfold kV in Hc; cbn [con_params] in Hc; inv4;
    unfold current_distance, current_hdistance, current_vdistance; try (destruct (negb _)); auto 12 with cl.
Qed.
Lemma rows_V h c : hV h -> kV c -> Forall (fun tr => VV (snd tr)) (grad_rows h c).
Proof.
  intros H Hc. unfold kV in Hc.
  destruct c; cbn [grad_rows]; cbn [con_params] in Hc; inv4;
    repeat match goal with |- Forall _ (if ?b then _ else _) => destruct b; [constructor|] end;
    repeat match goal with |- Forall _ (_ :: _) => apply Forall_cons | |- Forall _ [] => apply Forall_nil end;
    cbn [snd]; auto 30 with cl.
Qed.

(** ** Computations on the heap *)
Definition keeps {T} (m : M F T) (Q : T -> Prop) : Prop := forall h, hV h -> hV (fst (m h)) /\ forall x, snd (m h) = Val x -> Q x.
Lemma keeps_ret {T} (x : T) (Q : T -> Prop) : Q x -> keeps (mret x) Q.
Proof. intros Hx h H. split; auto. simpl. intros y E. now injection E as <-. Qed.
Lemma keeps_panic {T} (Q : T -> Prop) : keeps mpanic Q.
Proof. intros h H. split; auto. discriminate. Qed.
Lemma keeps_bind {T U} (m : M F T) (f : T -> M F U) Q R : keeps m Q -> (forall x, Q x -> keeps (f x) R) -> keeps (mbind m f) R.
Proof.
  intros Hm Hf h H. unfold mbind. destruct (m h) as [h1 [x|]] eqn:E.
  - destruct (Hm h H) as [H1 H2]. rewrite E in H1, H2. apply Hf; auto.
  - destruct (Hm h H) as [H1 _]. rewrite E in H1. split; auto. discriminate.
Qed.
Lemma keeps_assert b : keeps (massert b) (fun _ => True).
Proof. destruct b; [now apply keeps_ret | apply keeps_panic]. Qed.
Lemma keeps_for {T} (l : list T) f : (forall x, In x l -> keeps (f x) (fun _ => True)) -> keeps (mfor l f) (fun _ => True).
Proof.
  induction l as [|x l IH]; intros Hf; [now apply keeps_ret|]. cbn [mfor]. eapply keeps_bind; [apply Hf; now left|].
  intros _ _. apply IH. intros y Hy. apply Hf. now right.
Qed.
Lemma keeps_weaken {T} (m : M F T) (Q R : T -> Prop) : keeps m Q -> (forall x, Q x -> R x) -> keeps m R.
Proof. intros Hm HQ h H. destruct (Hm h H). auto. Qed.
Lemma keeps_write (g : heap F -> heap F) : (forall h, hV h -> hV (g h)) -> keeps (fun h => (g h, Val tt)) (fun _ => True).
Proof. intros Hg h H. split; auto. now apply Hg. Qed.
Definition U (_ : unit) := True.
Ltac anums := match goal with H : hV ?h |- context [getA ?h ?l] => destruct (aall h l H) as (? & ? & ? & ? & ? & ?) end.
Ltac cnums := match goal with H : hV ?h |- context [getC ?h ?l] => destruct (call_ h l H) as (? & ?) end.
Lemma firstn_V n u : VV u -> VV (firstn n u).
Proof. intros H. revert n. induction H; intros [|n]; simpl; constructor; auto. now apply IHForall. Qed.
Lemma skipn_V n u : VV u -> VV (skipn n u).
Proof. intros H. revert n. induction H; intros [|n]; simpl; auto; constructor; auto. Qed.
Lemma nth_V n u : VV u -> V (nth n u f0). Proof. intros. apply VV_nth; auto with cl. Qed.
Hint Resolve firstn_V skipn_V nth_V : cl.
Lemma padd_K l g : VV g -> keeps (Point2_add_to_gradient l g) U.
Proof. intros Hg. eapply keeps_bind; [apply keeps_assert|]. intros _ _. apply (keeps_write (fun h => _)). intros h H. apply setP_V; auto. nums. Qed.
Lemma pset_K l d : VV d -> keeps (Point2_set_data l d) U.
Proof. intros Hg. eapply keeps_bind; [apply keeps_assert|]. intros _ _. apply (keeps_write (fun h => _)). intros h H. apply setP_V; auto. nums. Qed.
Lemma psx_K l x : V x -> keeps (Point2_set_x l x) U.
Proof. intros Hg. eapply keeps_bind; [apply keeps_assert|]. intros _ _. apply (keeps_write (fun h => _)). intros h H. apply setP_V; auto. nums. Qed.
Lemma psy_K l x : V x -> keeps (Point2_set_y l x) U.
Proof. intros Hg. eapply keeps_bind; [apply keeps_assert|]. intros _ _. apply (keeps_write (fun h => _)). intros h H. apply setP_V; auto. nums. Qed.
Lemma ladd_K l g : VV g -> keeps (Line_add_to_gradient l g) U.
Proof.
  intros Hg. eapply keeps_bind; [apply keeps_assert|]. intros _ _ h H.
  refine (keeps_bind _ _ U U (padd_K _ _ _) (fun _ _ => padd_K _ _ _) h H); auto with cl.
Qed.
Lemma aadd_K l g : VV g -> keeps (Arc_add_to_gradient l g) U.
Proof.
  intros Hg. eapply keeps_bind; [apply keeps_assert|]. intros _ _ h H.
  refine (keeps_bind _ _ U U (padd_K _ _ _) _ h H); auto with cl. intros _ _. apply (keeps_write (fun h => _)). clear h H.
  intros h H. apply setA_V; auto. anums. nums.
Qed.
Lemma cadd_K l g : VV g -> keeps (Circle_add_to_gradient l g) U.
Proof.
  intros Hg. eapply keeps_bind; [apply keeps_assert|]. intros _ _ h H.
  refine (keeps_bind _ _ U U (padd_K _ _ _) _ h H); auto with cl. intros _ _. apply (keeps_write (fun h => _)). clear h H.
  intros h H. apply setC_V; auto. cnums. nums.
Qed.
Lemma aset_K l d : VV d -> keeps (Arc_set_data l d) U.
Proof. intros Hg. eapply keeps_bind; [apply keeps_assert|]. intros _ _. apply (keeps_write (fun h => _)). intros h H. apply setA_V; auto. anums. nums. Qed.
Lemma cset_K l d : VV d -> keeps (Circle_set_data l d) U.
Proof. intros Hg. eapply keeps_bind; [apply keeps_assert|]. intros _ _. apply (keeps_write (fun h => _)). intros h H. apply setC_V; auto. cnums. nums. Qed.
Lemma prim_set_K c d : VV d -> keeps (prim_set_data c d) U.
Proof. intros Hd. destruct c; cbn [prim_set_data]; [now apply pset_K | now apply keeps_ret | now apply aset_K | now apply cset_K]. Qed.
Lemma zero_V h c : hV h -> hV (prim_zero h c).
Proof.
  intros H. destruct c; cbn [prim_zero]; auto.
  - apply setP_V; auto. nums.
  - apply setA_V; auto. anums. nums.
  - apply setC_V; auto. cnums. nums.
Qed.
Lemma data_V h c : hV h -> VV (prim_data h c).
Proof. intros H. destruct c; cbn [prim_data]; try (anums); try cnums; unfold VV; repeat constructor; auto with cl. Qed.
Lemma grad_V h c : hV h -> VV (prim_grad h c).
Proof. intros H. destruct c; cbn [prim_grad]; try (anums); try cnums; unfold VV; repeat constructor; auto with cl. Qed.
Lemma update_K c : kV c -> keeps (update_gradient c) U.
Proof.
  intros Hc h H. apply (keeps_for (grad_rows h c)); auto. intros [t g] Hi.
  pose proof (rows_V h c H Hc) as R. rewrite Forall_forall in R. specialize (R _ Hi). cbn [snd fst] in *.
  destruct t; cbn [add_to_gradient]; [now apply padd_K | now apply ladd_K | now apply aadd_K].
Qed.
Lemma flat_V {T} (f : T -> list F) l : (forall x, VV (f x)) -> VV (flat_map f l).
Proof. intros Hf. apply Forall_flat_map, Forall_forall. intros. apply Hf. Qed.
Lemma get_data_V h s : hV h -> VV (get_data h s). Proof. intros. apply flat_V. intros. now apply data_V. Qed.
Lemma stored_V h s : hV h -> VV (stored_gradient s h). Proof. intros. apply flat_V. intros. now apply grad_V. Qed.
Lemma losses_V h s : hV h -> VV (get_loss_per_constraint h s).
Proof. intros H. apply Forall_map, Forall_forall. intros k _. apply loss_V; auto. now apply getK_V. Qed.
Lemma get_loss_V h s : hV h -> V (get_loss h s).
Proof.
  intros H. unfold get_loss. assert (G : forall l a, V a -> V (fold_left (fun acc k => acc +f loss_value h (getK h k)) l a)).
  { induction l as [|k l IH]; simpl; auto. intros a Ha. apply IH. apply Kadd; auto. apply loss_V; auto. now apply getK_V. }
  apply G. auto with cl.
Qed.
Lemma zero_all_V s h : hV h -> hV (zero_all s h).
Proof. unfold zero_all. generalize (cells s). intros l. revert h. induction l; simpl; auto. intros. apply IHl. now apply zero_V. Qed.
Lemma upd_at k : keeps (fun h : heap F => update_gradient (getK h k) h) U.
Proof. intros h H. apply update_K; auto. now apply getK_V. Qed.
Lemma gradient_K s : keeps (get_gradient s) VV.
Proof.
  intros h H. unfold get_gradient. refine (keeps_bind _ _ U VV _ _ _ (zero_all_V s h H)).
  - apply keeps_for. intros k _. apply upd_at.
  - intros _ _ h1 H1. refine (keeps_bind _ _ U VV (keeps_assert _) _ h1 H1). intros _ _. apply keeps_ret. now apply stored_V.
Qed.
Lemma jacobian_K s : keeps (get_jacobian s) VM.
Proof.
  unfold get_jacobian. induction (s_cons s) as [|k ks IH]; cbn [jacobian_rows]; [apply keeps_ret; constructor|].
  intros h H. refine (keeps_bind _ _ U VM (upd_at k) _ _ (zero_all_V s h H)). intros _ _ h1 H1.
  refine (keeps_bind _ _ VM VM IH _ h1 H1). intros rows Hr. apply keeps_ret. constructor; auto. now apply stored_V.
Qed.
Lemma set_data_K s d : VV d -> keeps (set_data s d) U.
Proof.
  intros Hd h H. unfold set_data. refine (keeps_bind _ _ U U (keeps_assert _) _ h H). intros _ _. clear h H.
  revert d Hd. induction (cells s) as [|c cs IH]; intros d Hd; cbn [set_data_loop]; [now apply keeps_ret|].
  intros h H. refine (keeps_bind _ _ U U (prim_set_K _ _ _) _ h H); auto with cl.
Qed.

(** ** Solvers *)
Definition LV (r : ls_res F) : Prop := match r with LOk a => V a | LErr _ => True end.
Lemma ls_loop_K s x0 d loss m curv n : VV x0 -> VV d -> forall a, V a -> keeps (ls_loop s x0 d loss m curv n a) LV.
Proof.
  intros Hx Hd. induction n as [|n IH]; intros a Ha; cbn [ls_loop]; [now apply keeps_ret|].
  eapply keeps_bind; [apply set_data_K; auto with cl|]. intros _ _ h H. destruct (fle _ _).
  - refine (keeps_bind _ _ VV LV (gradient_K s) _ h H). intros g Hg. destruct (fge _ _); [now apply keeps_ret | apply IH; auto with cl].
  - apply IH; auto with cl.
Qed.
Lemma search_K s d g : VV d -> keeps (line_search_wolfe s d g) LV.
Proof.
  intros Hd h H. unfold line_search_wolfe. destruct (fge _ _); [split; auto; simpl; intros x E; injection E as <-; exact I|].
  apply ls_loop_K; auto with cl. now apply get_data_V.
Qed.
Lemma ofval {T} (m : M F T) Q h h' x : keeps m Q -> hV h -> m h = (h', Val x) -> hV h' /\ Q x.
Proof. intros K H E. destruct (K h H) as [H1 H2]. rewrite E in *. auto. Qed.
Lemma gd_steps_V s h0 n h : hV h0 -> gd_steps s h0 n h -> hV h.
Proof.
  intros H0 Hs. induction Hs as [|n h h1 g alpha h2 h3 Hs IH Eg El Ed]; auto.
  destruct (ofval _ _ _ _ _ (gradient_K s) IH Eg) as [H1 Hg].
  destruct (ofval _ _ _ _ _ (search_K s _ g (VV_neg _ Hg)) H1 El) as [H2 Ha].
  eapply (ofval _ U); [|exact H2|exact Ed]. apply set_data_K. apply VV_axpy; auto with cl. now apply get_data_V.
Qed.
Lemma update_V H sv y sy : VM H -> VV sv -> VV y -> V sy -> VM (bfgs_update H sv y sy).
Proof. intros. unfold bfgs_update. assert (VV (mvec H y)) by auto with cl. repeat apply VM_ger; auto 8 with cl. Qed.
Lemma sdoty_V sv y : VV sv -> VV y -> V (bfgs_sdoty sv y).
Proof. intros. unfold bfgs_sdoty. destruct (flt _ _); auto with cl. Qed.
Hint Resolve update_V sdoty_V : cl.
Lemma bfgs_steps_V s h0 n r b h d H : hV h0 -> bfgs_steps s h0 n r b h d H -> hV h /\ VV d /\ VM H.
Proof.
  intros H0 Hs. induction Hs as [|n r b h d H h1 g alpha h2 h3 h4 g' Hs IH Eg El Ed Eg'|n r h d H h1 g h2 Hs IH Eg El].
  - split; auto. split; auto with cl. now apply get_data_V.
  - destruct IH as (Hh & Hd & HM). destruct (ofval _ _ _ _ _ (gradient_K s) Hh Eg) as [H1 Hg].
    assert (Hp : VV (mvec (mneg H) g)) by auto with cl.
    destruct (ofval _ _ _ _ _ (search_K s _ g Hp) H1 El) as [H2 Ha]. simpl in Ha.
    destruct (ofval _ U _ _ _ (set_data_K s _ (VV_add _ _ Hd (VV_scale _ _ Ha Hp))) H2 Ed) as [H3 _].
    destruct (ofval _ _ _ _ _ (gradient_K s) H3 Eg') as [H4 Hg']. split; auto. split; auto 6 with cl.
  - destruct IH as (Hh & Hd & HM). destruct (ofval _ _ _ _ _ (gradient_K s) Hh Eg) as [H1 Hg].
    assert (Hp : VV (mvec (mneg H) g)) by auto with cl.
    destruct (ofval _ _ _ _ _ (search_K s _ g Hp) H1 El) as [H2 _]. auto with cl.
Qed.
Lemma gd_loop_K s P n : forall i g gn loss, VV g -> keeps (gd_loop s P n i g gn loss) (fun _ => True).
Proof.
  induction n as [|n IH]; intros i g gn loss Hg; cbn [gd_loop]; [now apply keeps_ret|].
  destruct (flt _ _); [now apply keeps_ret|]. destruct (flt _ _); [now apply keeps_ret|]. intros h H.
  refine (keeps_bind _ _ LV _ (search_K s _ g (VV_neg _ Hg)) _ h H). intros [a|e] Ha; [|now apply keeps_ret].
  assert (Hd := get_data_V h s H). eapply keeps_bind; [apply set_data_K; simpl in Ha; auto with cl|]. intros _ _ h1 H1.
  refine (keeps_bind _ _ VV _ (gradient_K s) _ h1 H1). intros g' Hg'. now apply IH.
Qed.
Lemma bfgs_loop_K s P n : forall i d H b, VV d -> VM H -> keeps (bfgs_loop s P n i d H b) (fun _ => True).
Proof.
  induction n as [|n IH]; intros i d H b Hd HM; cbn [bfgs_loop]; [now apply keeps_ret|].
  destruct (negb _); [now apply keeps_ret|]. intros h Hh. destruct (flt _ _); [split; auto|].
  refine (keeps_bind _ _ VV _ (gradient_K s) _ h Hh). intros g Hg. destruct (negb _); [now apply keeps_ret|].
  destruct (flt _ _); [now apply keeps_ret|]. cbv zeta. assert (Hp : VV (mvec (mneg H) g)) by auto with cl.
  destruct (negb _); [now apply keeps_ret|]. eapply keeps_bind; [apply search_K, Hp|].
  intros [a|[|]] Ha; [|now apply keeps_ret|destruct b; [now apply keeps_ret | apply IH; auto with cl]].
  simpl in Ha. eapply keeps_bind; [apply set_data_K; auto with cl|]. intros _ _.
  eapply keeps_bind; [apply gradient_K|]. intros g' Hg'. apply IH; auto 6 with cl.
Qed.
Variable pinv : mat F -> F -> pinv_res (mat F).
Hypothesis Hpinv : forall m eps q, VM m -> V eps -> pinv m eps = PInv q -> VM q.
Lemma nls_loop_K s normal ml eps step n : (forall n J, VM J -> VM (normal n J)) -> V eps -> V step ->
  forall i l, keeps (nls_loop pinv s normal ml eps step n i l) (fun _ => True).
Proof.
  intros HN He Hst. induction n as [|n IH]; intros i l; cbn [nls_loop]; [now apply keeps_ret|].
  destruct (negb _); [now apply keeps_ret|]. intros h H. assert (Hd := get_data_V h s H). assert (Hl := losses_V h s H).
  refine (keeps_bind _ _ VM _ (jacobian_K s) _ h H). intros J HJ.
  unfold nls_step. destruct (pinv _ eps) as [q| |] eqn:Ep; [|now apply keeps_ret|apply keeps_panic].
  assert (Hq : VM q) by (eapply Hpinv; [| |exact Ep]; auto).
  eapply keeps_bind; [apply set_data_K; auto 8 with cl|]. intros _ _. apply IH.
Qed.
Lemma solve_K sol s : VV (solver_nums sol) -> keeps (solve pinv sol s) (fun _ => True).
Proof.
  intros Hs. destruct sol as [P|P|P|P]; cbn [solve solver_nums] in *; inv4; (eapply keeps_bind; [|intros; now apply keeps_ret]).
  - eapply keeps_bind; [apply gradient_K|]. intros g Hg h H. now apply gd_loop_K.
  - intros h H. unfold bfgs_run. apply bfgs_loop_K; auto with cl. now apply get_data_V.
  - apply nls_loop_K; auto. intros. unfold gn_normal. auto with cl.
  - apply nls_loop_K; auto. intros. unfold lm_normal. auto with cl.
Qed.
Lemma lset_VV l i x : VV l -> V x -> VV (lset l i x). Proof. apply lset_V. Qed.
Lemma check_K s eps k ce : V eps -> keeps (check_gradients s eps k ce) U.
Proof.
  intros He h H. unfold check_gradients. refine (keeps_bind _ _ VV U (gradient_K s) _ h H). intros _ _ h1 H1.
  apply keeps_for; auto. intros c _ h2 H2. assert (Hd := data_V h2 c H2).
  refine (keeps_bind _ _ U U (keeps_assert _) _ h2 H2). intros _ _.
  apply (keeps_bind _ _ (fun _ => True)); [|intros; apply keeps_assert].
  generalize (seq 0 (length (prim_data h2 c))) as is. generalize (get_loss h1 s) as l0. intros l0 is.
  induction is as [|i is IH]; cbn [check_coords]; [now apply keeps_ret|].
  eapply keeps_bind; [apply prim_set_K, lset_VV; auto with cl|]. intros _ _ h3 H3.
  refine (keeps_bind _ _ U (fun _ => True) (prim_set_K _ _ _) _ h3 H3); auto. intros _ _.
  eapply keeps_bind; [exact IH|]. intros. now apply keeps_ret.
Qed.

(** ** Every call *)
Lemma step_V st o st' r : hV (fst st) -> VV (op_nums o) -> step pinv st o = (st', r) -> hV (fst st') /\ VV (ret_nums r).
Proof.
  destruct st as [h s]. cbn [fst]. intros H Ho E.
  assert (OH : forall {T} (m : M F T) (f : T -> ret F) (Q : T -> Prop), keeps m Q -> (forall x, Q x -> VV (ret_nums (f x))) ->
    on_heap m f (h, s) = (st', r) -> hV (fst st') /\ VV (ret_nums r)).
  { intros T m f Q K Hf E1. unfold on_heap in E1. cbn [fst snd] in E1. destruct (K h H) as [H1 H2]. destruct (m h) as [h1 [x|]];
      injection E1 as <- <-; cbn [fst snd] in *; split; auto. constructor. }
  destruct o; cbn [step op_nums] in *; inv4;
    try (eapply OH; [| |exact E]; [first [apply set_data_K | apply gradient_K | apply jacobian_K | apply solve_K | apply check_K | apply psx_K | apply psy_K | apply padd_K | apply prim_set_K | apply upd_at]; auto with cl | intros; cbn [ret_nums]; try constructor; auto]; fail).
  - injection E as <- <-. cbn [fst ret_nums]. split; [|constructor]. apply allocP_V; auto. nums.
  - injection E as <- <-. split; [exact H|constructor].
  - injection E as <- <-. cbn [fst ret_nums]. split; [|constructor]. apply allocA_V; auto. nums.
  - injection E as <- <-. cbn [fst ret_nums]. split; [|constructor]. apply allocC_V; auto. nums.
  - destruct (con_new_ok c); injection E as <- <-; cbn [fst ret_nums]; (split; [|constructor]); auto. now apply allocK_V.
  - destruct (add_primitive h s c) as [s' [x|e]]; injection E as <- <-; split; auto; constructor.
  - unfold add_point2 in E. cbn [allocP] in E. destruct (add_primitive _ s _) as [s' [i|e]]; injection E as <- <-; cbn [fst of_res ret_nums];
      (split; [|constructor]); apply (allocP_V h (Point2_new x y)); auto; nums.
  - unfold add_line in E. cbn [allocL] in E. destruct (add_primitive _ s _) as [s' [i|e1]]; injection E as <- <-; (split; [exact H|constructor]).
  - unfold add_arc in E. cbn [allocA] in E. destruct (add_primitive _ s _) as [s' [i|e]]; injection E as <- <-; cbn [fst of_res ret_nums];
      (split; [|constructor]); apply (allocA_V h (Arc_new c r0 cw sa ea)); auto; nums.
  - destruct (add_constraint h s k) as [s' [x|e]]; injection E as <- <-; split; auto; constructor.
  - unfold constrain in E. destruct (negb (con_new_ok c)); [injection E as <- <-; split; auto; constructor|]. cbn [allocK] in E.
    destruct (add_constraint _ s _) as [s' [i|e]]; injection E as <- <-; cbn [fst of_res ret_nums]; (split; [|constructor]); apply (allocK_V h c); auto.
  - destruct (delete_primitive s id) as [s' [x|e]]; injection E as <- <-; split; auto; constructor.
  - destruct (delete_constraint s k) as [s' [x|e]]; injection E as <- <-; split; auto; constructor.
  - eapply OH; [apply jacobian_K| |exact E]. intros J HJ. now apply Forall_concat.
  - injection E as <- <-. split; [|constructor]. apply setP_V; auto.
  - injection E as <- <-. split; [exact H|constructor].
  - injection E as <- <-. split; [exact H|constructor].
  - injection E as <- <-. split; [|constructor]. apply setA_V; auto. anums. nums.
  - injection E as <- <-. split; [|constructor]. apply setA_V; auto. nums.
  - injection E as <- <-. split; [|constructor]. apply setC_V; auto. cnums. nums.
  - injection E as <- <-. split; [|constructor]. apply setC_V; auto. nums.
  - injection E as <- <-. split; [|constructor]. apply setK_V; auto. pose proof (getK_V h k H) as Hk. unfold kV in *.
    destruct (getK h k); cbn [con_with_params con_params] in *; unfold VV; repeat constructor; auto.
  - destruct (same_kind _ _); injection E as <- <-; (split; [|constructor]); auto. now apply setK_V.
  - injection E as <- <-. split; [|constructor]. now apply zero_V.
  - eapply OH; [apply update_K, getK_V, H| |exact E]. intros. constructor.
Qed.
Lemma run_V st os rs st' : hV (fst st) -> Forall (fun o => VV (op_nums o)) os -> run pinv st os rs st' ->
  hV (fst st') /\ Forall (fun r => VV (ret_nums r)) rs.
Proof.
  intros H Ho R. induction R as [|st o st1 r os rs st' Hok E R IH]; auto. inversion Ho; subst.
  destruct (step_V _ _ _ _ H H2 E) as [H4 H5]. destruct (IH H4 H3). split; auto.
Qed.
End Closed.
