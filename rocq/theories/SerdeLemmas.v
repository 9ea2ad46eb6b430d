(** * Round trip through the serialised form, for any arithmetic *)
From Coq Require Import List ZArith NArith Arith Bool Lia Sorted.
From Verif Require Import Arith Vec Prim Cons Sketch Solve Serde Api Spec HeapLemmas BookLemmas WfLemmas DataLemmas SpecLemmas ExactSpec PureLemmas RestLemmas ExactLemmas GradLemmas.
Import ListNotations.

Section SL.
Context {F : Type} {A : Arith F}.

(** [h'] has the cells of [h], unchanged, and possibly more *)
Record ext (h h' : heap F) : Prop := {
  e_pts : exists l, h_pts h' = h_pts h ++ l; e_lines : exists l, h_lines h' = h_lines h ++ l;
  e_arcs : exists l, h_arcs h' = h_arcs h ++ l; e_circs : exists l, h_circs h' = h_circs h ++ l;
  e_cons : exists l, h_cons h' = h_cons h ++ l }.
Lemma ext_refl h : ext h h.
Proof. constructor; exists []; now rewrite app_nil_r. Qed.
Lemma ext_trans h1 h2 h3 : ext h1 h2 -> ext h2 h3 -> ext h1 h3.
Proof.
  intros [[a1 A1] [a2 A2] [a3 A3] [a4 A4] [a5 A5]] [[b1 B1] [b2 B2] [b3 B3] [b4 B4] [b5 B5]].
  constructor; eexists; [rewrite B1, A1 | rewrite B2, A2 | rewrite B3, A3 | rewrite B4, A4 | rewrite B5, A5]; rewrite <- app_assoc; reflexivity.
Qed.
Lemma ext_P h x : ext h (fst (allocP h x)).
Proof. constructor; simpl; (eexists; reflexivity) || (exists []; now rewrite app_nil_r). Qed.
Lemma ext_L h x : ext h (fst (allocL h x)).
Proof. constructor; simpl; (eexists; reflexivity) || (exists []; now rewrite app_nil_r). Qed.
Lemma ext_A h x : ext h (fst (allocA h x)).
Proof. constructor; simpl; (eexists; reflexivity) || (exists []; now rewrite app_nil_r). Qed.
Lemma ext_C h x : ext h (fst (allocC h x)).
Proof. constructor; simpl; (eexists; reflexivity) || (exists []; now rewrite app_nil_r). Qed.
Lemma ext_K h x : ext h (fst (allocK h x)).
Proof. constructor; simpl; (eexists; reflexivity) || (exists []; now rewrite app_nil_r). Qed.
Lemma ext_cell h h' c : ext h h' -> cell_ok h c -> cell_ok h' c.
Proof.
  intros [[a1 A1] [a2 A2] [a3 A3] [a4 A4] _]. destruct c; simpl; rewrite ?A1, ?A2, ?A3, ?A4, app_length; lia.
Qed.
Lemma ext_getP h h' l : ext h h' -> l < length (h_pts h) -> getP h' l = getP h l.
Proof. intros [[x E] _ _ _ _] H. unfold getP. rewrite E. now apply app_nth1. Qed.
Lemma ext_getL h h' l : ext h h' -> l < length (h_lines h) -> getL h' l = getL h l.
Proof. intros [_ [x E] _ _ _] H. unfold getL. rewrite E. now apply app_nth1. Qed.
Lemma ext_getA h h' l : ext h h' -> l < length (h_arcs h) -> getA h' l = getA h l.
Proof. intros [_ _ [x E] _ _] H. unfold getA. rewrite E. now apply app_nth1. Qed.
Lemma ext_getC h h' l : ext h h' -> l < length (h_circs h) -> getC h' l = getC h l.
Proof. intros [_ _ _ [x E] _] H. unfold getC. rewrite E. now apply app_nth1. Qed.
Lemma ext_getK h h' l : ext h h' -> l < length (h_cons h) -> getK h' l = getK h l.
Proof. intros [_ _ _ _ [x E]] H. unfold getK. rewrite E. now apply app_nth1. Qed.
Lemma ext_refs h h' c : ext h h' -> cell_ok h c -> prim_refs h' c = prim_refs h c.
Proof. intros E H. destruct c; simpl in *; auto; rewrite ?(ext_getL _ _ _ E), ?(ext_getA _ _ _ E), ?(ext_getC _ _ _ E); auto. Qed.
Lemma ext_ser h h' c : ext h h' -> cell_ok h c -> Forall (cell_ok h) (prim_refs h c) -> ser_prim h' c = ser_prim h c.
Proof.
  intros E H R. destruct c; simpl in *; unfold ser_line, ser_arc, ser_circle.
  - now rewrite (ext_getP _ _ _ E).
  - inversion R as [|? ? R1 R2]; subst. inversion R2 as [|? ? R3 _]; subst. simpl in *. rewrite (ext_getL _ _ _ E), !(ext_getP _ _ _ E); auto.
  - inversion R as [|? ? R1 R2]; subst. simpl in *. rewrite (ext_getA _ _ _ E), !(ext_getP _ _ _ E); auto.
  - inversion R as [|? ? R1 R2]; subst. simpl in *. rewrite (ext_getC _ _ _ E), !(ext_getP _ _ _ E); auto.
Qed.
(** a constraint's serialised form is determined by those of its references *)
Definition closed_con (h : heap F) (c : con F) : Prop := forall r, In r (con_refs c) -> cell_ok h r /\ Forall (cell_ok h) (prim_refs h r).
Definition tP (t : tprim F) : point F := match t with TPoint p => p | _ => pt0 end.
Definition tL (t : tprim F) : tline F := match t with TLine l => l | _ => mkTLine pt0 pt0 end.
Definition tA (t : tprim F) : tarc F := match t with TArc a => a | _ => mkTArc pt0 (f0, f0, f0) (f0, f0, f0) false end.
Definition con_of (g : pcell -> tprim F) (c : con F) : tcon F :=
  match c with
  | AngleBetweenPoints p1 p2 pm d => TAngle (tP (g (PPoint p1))) (tP (g (PPoint p2))) (tP (g (PPoint pm))) d
  | ArcEndPointCoincident a p => TArcEnd (tA (g (PArc a))) (tP (g (PPoint p)))
  | ArcStartPointCoincident a p => TArcStart (tA (g (PArc a))) (tP (g (PPoint p)))
  | EuclideanDistance p1 p2 d => TEuclid (tP (g (PPoint p1))) (tP (g (PPoint p2))) d
  | HorizontalDistance p1 p2 d => THDist (tP (g (PPoint p1))) (tP (g (PPoint p2))) d
  | VerticalDistance p1 p2 d => TVDist (tP (g (PPoint p1))) (tP (g (PPoint p2))) d
  | FixPoint p x y => TFix (tP (g (PPoint p))) x y
  | EqualLength l1 l2 => TEqual (tL (g (PLine l1))) (tL (g (PLine l2)))
  | HorizontalLine l => THLine (tL (g (PLine l)))
  | VerticalLine l => TVLine (tL (g (PLine l)))
  | ParallelLines l1 l2 => TParallel (tL (g (PLine l1))) (tL (g (PLine l2)))
  | PerpendicularLines l1 l2 => TPerp (tL (g (PLine l1))) (tL (g (PLine l2)))
  end.
Lemma ser_con_of h c : ser_con h c = con_of (ser_prim h) c.
Proof. destruct c; reflexivity. Qed.
Lemma con_of_ext g g' c : (forall r, In r (con_refs c) -> g r = g' r) -> con_of g c = con_of g' c.
Proof. intros H. destruct c; simpl in *; rewrite ?H; auto. Qed.
Lemma ext_ser_con h h' c : ext h h' -> closed_con h c -> ser_con h' c = ser_con h c.
Proof. intros E H. rewrite !ser_con_of. apply con_of_ext. intros r Hr. destruct (H r Hr). now apply ext_ser. Qed.
Lemma ext_closed_con h h' c : ext h h' -> closed_con h c -> closed_con h' c.
Proof.
  intros E H r Hr. destruct (H r Hr) as [H1 H2]. split; [eapply ext_cell; eauto|]. rewrite (ext_refs _ _ _ E H1). eapply Forall_impl; [|exact H2]. intros a. now apply ext_cell.
Qed.

Lemma NoDup_app2 {T} (l l' : list T) : NoDup l -> NoDup l' -> (forall x, In x l' -> ~ In x l) -> NoDup (l ++ l').
Proof.
  intros H H' D. induction H as [|a l Ha H IH]; simpl; auto. constructor.
  - rewrite in_app_iff. intros [K|K]; [auto|]. apply (D a K). now left.
  - apply IH. intros x X Y. apply (D x X). now right.
Qed.
(** ** Blocks of new, pairwise distinct cells *)
Record blk (h h1 : heap F) (l : list pcell) : Prop := {
  b_ext : ext h h1; b_new : Forall (fun c => ~ cell_ok h c /\ cell_ok h1 c) l; b_nodup : NoDup l }.
Lemma blk_app h h1 h2 l1 l2 : blk h h1 l1 -> blk h1 h2 l2 -> blk h h2 (l1 ++ l2).
Proof.
  intros [E1 N1 D1] [E2 N2 D2]. rewrite Forall_forall in N1, N2. constructor.
  - eapply ext_trans; eauto.
  - apply Forall_app. split; apply Forall_forall; intros c Hc.
    + destruct (N1 c Hc). split; auto. eapply ext_cell; eauto.
    + destruct (N2 c Hc) as [X Y]. split; auto. intros Z. apply X. eapply ext_cell; eauto.
  - apply NoDup_app2; auto. intros c H2 H1. apply (proj1 (N2 c H2)). apply (N1 c H1).
Qed.
Lemma blk_weak h h1 h2 l : blk h h1 l -> ext h1 h2 -> blk h h2 l.
Proof.
  intros [E1 N1 D1] E. constructor; auto; [eapply ext_trans; eauto|]. eapply Forall_impl; [|exact N1]. intros c [X Y]. split; auto. eapply ext_cell; eauto.
Qed.

(** a new cell [c] for the tree [t], with new private references *)
Definition group (h : heap F) (c : pcell) : list pcell := c :: prim_refs h c.
Record made (h h1 : heap F) (c : pcell) (t : tprim F) : Prop := {
  m_blk : blk h h1 (group h1 c); m_ser : ser_prim h1 c = t; m_cons : h_cons h1 = h_cons h;
  m_heap : heap_ok h -> heap_ok h1 }.
Lemma nth_new {T} (l : list T) x d : nth (length l) (l ++ [x]) d = x.
Proof. rewrite app_nth2, Nat.sub_diag; auto. Qed.
Ltac inall := repeat match goal with E : _ = (_, _) |- _ => injection E as <- <- end.
Lemma made_point h p : let (h1, l) := allocP h p in made h h1 (PPoint l) (TPoint p).
Proof.
  cbn [allocP]. constructor; simpl; auto.
  - constructor; [apply (ext_P h p)| |]; repeat constructor; simpl; auto; rewrite ?app_length; simpl; lia.
  - unfold getP. cbn [h_pts]. now rewrite nth_new.
  - intros H. apply (proj1 (heap_ok_alloc h H) p).
Qed.
Lemma made_line h t : let (h1, l) := de_line h t in made h h1 (PLine l) (TLine t).
Proof.
  unfold de_line. destruct (allocP h (tl_start t)) as [h1 a] eqn:E1. destruct (allocP h1 (tl_end t)) as [h2 b] eqn:E2. destruct (allocL h2 (mkLine a b)) as [h3 l] eqn:E3.
  assert (X1 : ext h h1) by (rewrite <- (f_equal fst E1 : fst (allocP h _) = h1); apply ext_P).
  assert (X2 : ext h1 h2) by (rewrite <- (f_equal fst E2 : fst (allocP h1 _) = h2); apply ext_P).
  assert (X3 : ext h2 h3) by (rewrite <- (f_equal fst E3 : fst (allocL h2 _) = h3); apply ext_L).
  assert (G : getL h3 l = mkLine a b) by (injection E3 as <- <-; unfold getL; cbn [h_lines]; apply nth_new).
  assert (La : length (h_pts h) = a /\ a < length (h_pts h1)) by (injection E1 as <- <-; simpl; rewrite app_length; simpl; lia).
  assert (Lb : length (h_pts h1) = b /\ b < length (h_pts h2)) by (injection E2 as <- <-; simpl; rewrite app_length; simpl; lia).
  assert (Oa : cell_ok h3 (PPoint a)) by (apply (ext_cell h2); auto; apply (ext_cell h1); simpl; auto; apply La).
  assert (Ob : cell_ok h3 (PPoint b)) by (apply (ext_cell h2); simpl; auto; apply Lb).
  constructor.
  - unfold group. cbn [prim_refs]. rewrite G. cbn [l_start l_end]. constructor.
    + eapply ext_trans; [eapply ext_trans|]; eauto.
    + repeat apply Forall_cons; try apply Forall_nil; split; auto; inall; simpl in *; rewrite ?app_length in *; simpl in *; lia.
    + repeat apply NoDup_cons; try apply NoDup_nil; simpl; try tauto; intros K; repeat destruct K as [K|K]; try discriminate; auto. injection K as K. lia.
  - simpl. unfold ser_line. rewrite G. cbn [l_start l_end]. rewrite !(ext_getP _ _ _ X3) by (simpl; try lia; apply (ext_cell _ _ (PPoint a) X2); simpl; lia).
    rewrite (ext_getP _ _ a X2) by lia. injection E1 as <- <-. injection E2 as <- <-. unfold getP. cbn [h_pts]. rewrite !nth_new. now destruct t.
  - inall. reflexivity.
  - intros H. assert (H1 : heap_ok h1) by (rewrite <- (f_equal fst E1 : fst (allocP h _) = h1); apply (heap_ok_alloc h H)).
    assert (H2 : heap_ok h2) by (rewrite <- (f_equal fst E2 : fst (allocP h1 _) = h2); apply (heap_ok_alloc h1 H1)).
    rewrite <- (f_equal fst E3 : fst (allocL h2 _) = h3). apply (heap_ok_alloc h2 H2); simpl; [|lia]. apply (ext_cell _ _ (PPoint a) X2). simpl. lia.
Qed.
Lemma made_arc h t : let (h1, l) := de_arc h t in made h h1 (PArc l) (TArc t).
Proof.
  unfold de_arc. destruct t as [ce [[r sa] ea] [[gr gsa] gea] cw]. cbn [ta_center ta_data ta_grad ta_cw].
  destruct (allocP h ce) as [h1 a] eqn:E1. destruct (allocA h1 _) as [h3 l] eqn:E3.
  assert (X1 : ext h h1) by (rewrite <- (f_equal fst E1 : fst (allocP h _) = h1); apply ext_P).
  assert (X3 : ext h1 h3) by (rewrite <- (f_equal fst E3 : fst (allocA h1 _) = h3); apply ext_A).
  assert (G : getA h3 l = mkArc a r sa ea gr gsa gea cw) by (injection E3 as <- <-; unfold getA; cbn [h_arcs]; apply nth_new).
  assert (La : length (h_pts h) = a /\ a < length (h_pts h1)) by (injection E1 as <- <-; simpl; rewrite app_length; simpl; lia).
  assert (Oa : cell_ok h3 (PPoint a)) by (apply (ext_cell h1); simpl; auto; apply La).
  constructor.
  - unfold group. cbn [prim_refs]. rewrite G. cbn [a_center]. constructor.
    + eapply ext_trans; eauto.
    + repeat apply Forall_cons; try apply Forall_nil; split; auto; inall; simpl in *; rewrite ?app_length in *; simpl in *; lia.
    + repeat apply NoDup_cons; try apply NoDup_nil; simpl; try tauto; intros K; repeat destruct K as [K|K]; try discriminate; auto.
  - simpl. unfold ser_arc. rewrite G. cbn [a_center a_radius a_sa a_ea a_gr a_gsa a_gea a_cw]. rewrite (ext_getP _ _ _ X3) by lia.
    injection E1 as <- <-. unfold getP. cbn [h_pts]. rewrite nth_new. reflexivity.
  - inall. reflexivity.
  - intros H. assert (H1 : heap_ok h1) by (rewrite <- (f_equal fst E1 : fst (allocP h _) = h1); apply (heap_ok_alloc h H)).
    rewrite <- (f_equal fst E3 : fst (allocA h1 _) = h3). apply (heap_ok_alloc h1 H1); simpl; lia.
Qed.
Lemma made_circle h t : let (h1, l) := de_circle h t in made h h1 (PCircle l) (TCircle t).
Proof.
  unfold de_circle. destruct t as [ce r g]. cbn [tc_center tc_data tc_grad].
  destruct (allocP h ce) as [h1 a] eqn:E1. destruct (allocC h1 _) as [h3 l] eqn:E3.
  assert (X1 : ext h h1) by (rewrite <- (f_equal fst E1 : fst (allocP h _) = h1); apply ext_P).
  assert (X3 : ext h1 h3) by (rewrite <- (f_equal fst E3 : fst (allocC h1 _) = h3); apply ext_C).
  assert (G : getC h3 l = mkCircle a r g) by (injection E3 as <- <-; unfold getC; cbn [h_circs]; apply nth_new).
  assert (La : length (h_pts h) = a /\ a < length (h_pts h1)) by (injection E1 as <- <-; simpl; rewrite app_length; simpl; lia).
  assert (Oa : cell_ok h3 (PPoint a)) by (apply (ext_cell h1); simpl; auto; apply La).
  constructor.
  - unfold group. cbn [prim_refs]. rewrite G. cbn [c_center]. constructor.
    + eapply ext_trans; eauto.
    + repeat apply Forall_cons; try apply Forall_nil; split; auto; inall; simpl in *; rewrite ?app_length in *; simpl in *; lia.
    + repeat apply NoDup_cons; try apply NoDup_nil; simpl; try tauto; intros K; repeat destruct K as [K|K]; try discriminate; auto.
  - simpl. unfold ser_circle. rewrite G. cbn [c_center c_radius c_gr]. rewrite (ext_getP _ _ _ X3) by lia.
    injection E1 as <- <-. unfold getP. cbn [h_pts]. rewrite nth_new. reflexivity.
  - inall. reflexivity.
  - intros H. assert (H1 : heap_ok h1) by (rewrite <- (f_equal fst E1 : fst (allocP h _) = h1); apply (heap_ok_alloc h H)).
    rewrite <- (f_equal fst E3 : fst (allocC h1 _) = h3). apply (heap_ok_alloc h1 H1); simpl; lia.
Qed.
Lemma made_prim h t : let (h1, c) := de_prim h t in made h h1 c t.
Proof.
  destruct t as [p|l|a|c]; unfold de_prim.
  - apply made_point.
  - generalize (made_line h l). destruct (de_line h l). exact (fun H => H).
  - generalize (made_arc h a). destruct (de_arc h a). exact (fun H => H).
  - generalize (made_circle h c). destruct (de_circle h c). exact (fun H => H).
Qed.

(** ** Sequences of new cells *)
Inductive mades : heap F -> heap F -> list pcell -> list (tprim F) -> Prop :=
| mades_nil h : mades h h [] []
| mades_cons h h1 h2 c t cs ts : made h h1 c t -> mades h1 h2 cs ts -> mades h h2 (c :: cs) (t :: ts).
Definition groups (h : heap F) (l : list pcell) : list pcell := flat_map (group h) l.
Lemma mades_ext h h2 cs ts : mades h h2 cs ts -> ext h h2.
Proof. induction 1; [apply ext_refl|]. eapply ext_trans; [apply H|]. auto. Qed.
Lemma made_live h h1 c t : made h h1 c t -> cell_ok h1 c /\ Forall (cell_ok h1) (prim_refs h1 c).
Proof. intros M. pose proof (b_new _ _ _ (m_blk _ _ _ _ M)) as N. inversion N as [|? ? X Y]; subst. split; [apply X|]. eapply Forall_impl; [|exact Y]. now intros ? []. Qed.
Lemma mades_spec h h2 cs ts : mades h h2 cs ts ->
  blk h h2 (groups h2 cs) /\ map (ser_prim h2) cs = ts /\ h_cons h2 = h_cons h /\ (heap_ok h -> heap_ok h2).
Proof.
  induction 1 as [h|h h1 h2 c t cs ts M Ms (B & S & K & O)].
  - simpl. split; [|auto]. constructor; auto using ext_refl, NoDup_nil.
  - destruct (made_live _ _ _ _ M) as [Lc Lr]. pose proof (mades_ext _ _ _ _ Ms) as E. destruct M as [Mb Ms' Mc Mh].
    cbn [groups flat_map map]. split; [|split; [|split]].
    + apply (blk_app h h1 h2); auto. unfold group. rewrite (ext_refs _ _ _ E Lc). exact Mb.
    + rewrite (ext_ser _ _ _ E Lc Lr), Ms', S. reflexivity.
    + congruence.
    + auto.
Qed.
Lemma de_prims_spec l : forall h, let (h2, r) := de_prims h l in map fst r = map fst l /\ mades h h2 (map snd r) (map snd l).
Proof.
  induction l as [|[k t] l IH]; intros h; cbn [de_prims].
  - split; constructor.
  - pose proof (made_prim h t) as M. destruct (de_prim h t) as [h1 c]. specialize (IH h1). destruct (de_prims h1 l) as [h2 r]. destruct IH as [I1 I2].
    cbn [map fst snd]. split; [now rewrite I1|]. econstructor; eauto.
Qed.

(** ** Constraints *)
Record madeK (h h1 : heap F) (c : con F) (t : tcon F) : Prop := {
  k_blk : blk h h1 (deps h1 c); k_ser : ser_con h1 c = t; k_cons : h_cons h1 = h_cons h;
  k_heap : heap_ok h -> heap_ok h1 }.
Lemma madeK_of h h1 c t ts : mades h h1 (con_refs c) ts ->
  (map (ser_prim h1) (con_refs c) = ts -> ser_con h1 c = t) -> madeK h h1 c t.
Proof. intros M H. destruct (mades_spec _ _ _ _ M) as (B & S & K & O). constructor; auto. Qed.
Ltac mk1 := match goal with
  | |- context [let (_, _) := allocP ?h ?p in _] => generalize (made_point h p); destruct (allocP h p); cbv iota beta
  | |- context [let (_, _) := de_line ?h ?p in _] => generalize (made_line h p); destruct (de_line h p); cbv iota beta
  | |- context [let (_, _) := de_arc ?h ?p in _] => generalize (made_arc h p); destruct (de_arc h p); cbv iota beta
  end.
Lemma de_con_spec h t : let (h1, c) := de_con h t in madeK h h1 c t.
Proof.
  destruct t; unfold de_con; repeat mk1; intros; (eapply madeK_of; [cbn [con_refs]; repeat (econstructor; [eassumption|]); constructor |]);
  cbn [con_refs map ser_prim ser_con]; intros E; injection E; intros; congruence.
Qed.

Lemma madeK_live h h1 c t : madeK h h1 c t -> closed_con h1 c.
Proof.
  intros M r Hr. pose proof (b_new _ _ _ (k_blk _ _ _ _ M)) as N. rewrite Forall_forall in N. split.
  - apply N. unfold deps. apply in_flat_map. exists r. split; auto. now left.
  - apply Forall_forall. intros x Hx. apply N. unfold deps. apply in_flat_map. exists r. split; auto. now right.
Qed.
Lemma flat_map_eq {T U} (f g : T -> list U) l : (forall x, In x l -> f x = g x) -> flat_map f l = flat_map g l.
Proof. intros H. induction l as [|a l IH]; simpl; auto. rewrite (H a) by now left. rewrite IH; auto. intros x Hx. apply H. now right. Qed.
Lemma ext_deps h h' c : ext h h' -> closed_con h c -> deps h' c = deps h c.
Proof. intros E H. unfold deps. apply flat_map_eq. intros r Hr. rewrite (ext_refs _ _ _ E); auto. apply (H r Hr). Qed.
Definition all_deps (h : heap F) (ks : list loc) : list pcell := flat_map (fun k => deps h (getK h k)) ks.
Lemma de_cons_spec l : forall h, let (h3, ks) := de_cons h l in
  blk h h3 (all_deps h3 ks) /\ map (fun k => ser_con h3 (getK h3 k)) ks = l /\
  ks = seq (length (h_cons h)) (length l) /\ length (h_cons h3) = length (h_cons h) + length l /\ (heap_ok h -> heap_ok h3).
Proof.
  induction l as [|t l IH]; intros h; cbn [de_cons].
  - cbn. split; [constructor; auto using ext_refl, NoDup_nil|]. split; [auto|]. split; [auto|]. split; [lia|auto].
  - pose proof (de_con_spec h t) as M. destruct (de_con h t) as [h1 c].
    destruct (allocK h1 c) as [h2 k] eqn:E. specialize (IH h2). destruct (de_cons h2 l) as [h3 ks]. destruct IH as (B & S & K & L & O).
    assert (X : ext h1 h2) by (rewrite <- (f_equal fst E : fst (allocK h1 c) = h2); apply ext_K).
    assert (Gk : getK h2 k = c) by (injection E as <- <-; unfold getK; cbn [h_cons]; apply nth_new).
    assert (Lk : k = length (h_cons h) /\ length (h_cons h2) = 1 + length (h_cons h)) by (rewrite <- (k_cons _ _ _ _ M); injection E as <- <-; cbn [h_cons]; rewrite app_length; simpl; lia).
    destruct Lk as [Lk L2].
    assert (G3 : getK h3 k = c) by (rewrite (ext_getK h2 h3); [auto | apply B | lia]).
    pose proof (madeK_live _ _ _ _ M) as C1. pose proof (ext_closed_con _ _ _ X C1) as C2.
    cbn [all_deps flat_map map length seq]. rewrite G3. split; [|split; [|split; [|split]]].
    + apply (blk_app h h2 h3); [|exact B]. rewrite (ext_deps h2 h3) by (auto; apply B). rewrite (ext_deps h1 h2) by auto. eapply blk_weak; [apply M|auto].
    + rewrite S. f_equal. rewrite (ext_ser_con h2 h3) by (auto; apply B). rewrite (ext_ser_con h1 h2) by auto. apply M.
    + rewrite K, L2, Lk. reflexivity.
    + lia.
    + intros H. apply O. rewrite <- (f_equal fst E : fst (allocK h1 c) = h2). apply (heap_ok_alloc h1 (k_heap _ _ _ _ M H)).
      apply Forall_forall. intros r Hr. apply (C1 r Hr).
Qed.

(** ** The whole sketch *)
Lemma rebuild ps m : StronglySorted N.lt (map fst (m ++ ps)) ->
  fold_left (fun m (kp : N * pcell) => bt_insert (fst kp) (snd kp) m) ps m = m ++ ps.
Proof.
  revert m. induction ps as [|[k c] ps IH]; intros m H; simpl; [now rewrite app_nil_r|].
  rewrite bt_insert_last.
  - rewrite IH; rewrite <- app_assoc; auto.
  - clear IH. induction m as [|[a b] m IH]; simpl in *; constructor.
    + inversion H as [|? ? _ X]; subst. rewrite Forall_forall in X. apply X. rewrite map_app. apply in_or_app. right. now left.
    + apply IH. now inversion H.
Qed.
Lemma map_pair_eq {T} (l : list (N * T)) l' : map fst l = map fst l' -> map snd l = map snd l' -> l = l'.
Proof. revert l'. induction l as [|[a b] l IH]; intros [|[c d] l']; simpl; intros H1 H2; try discriminate; auto. injection H1 as <- H1. injection H2 as <- H2. f_equal; auto. Qed.
Lemma groups_ext h h' l : ext h h' -> Forall (cell_ok h) l -> groups h' l = groups h l.
Proof. intros E H. apply flat_map_eq. intros c Hc. unfold group. rewrite Forall_forall in H. now rewrite (ext_refs _ _ _ E (H c Hc)). Qed.

Record fresh_copy (h0 h' : heap F) (s' : sketch) (t : tsketch F) : Prop := {
  fc_ext : ext h0 h'; fc_ser : serialize h' s' = t;
  fc_new : Forall (fun c => ~ cell_ok h0 c /\ cell_ok h' c) (groups h' (cells s') ++ all_deps h' (s_cons s'));
  fc_nodup : NoDup (groups h' (cells s') ++ all_deps h' (s_cons s'));
  fc_cons : s_cons s' = seq (length (h_cons h0)) (length (t_cons t));
  fc_klen : length (h_cons h') = length (h_cons h0) + length (t_cons t);
  fc_heap : heap_ok h0 -> heap_ok h' }.
Lemma deserialize_spec (t : tsketch F) h0 h' s' : StronglySorted N.lt (map fst (t_prims t)) -> deserialize t h0 = (h', s') -> fresh_copy h0 h' s' t.
Proof.
  intros So. unfold deserialize. pose proof (de_prims_spec (t_prims t) h0) as P. destruct (de_prims h0 (t_prims t)) as [h1 ps]. destruct P as [P1 P2].
  pose proof (de_cons_spec (t_cons t) h1) as K. destruct (de_cons h1 (t_cons t)) as [h2 ks]. destruct K as (B & S & Ks & L & O).
  intros E. injection E as <- <-. rewrite rebuild by (simpl; now rewrite P1). cbn [app].
  destruct (mades_spec _ _ _ _ P2) as (B1 & S1 & C1 & O1). pose proof (b_ext _ _ _ B) as X.
  assert (Lv : forall c, In c (map snd ps) -> cell_ok h1 c /\ Forall (cell_ok h1) (prim_refs h1 c)).
  { intros c Hc. pose proof (b_new _ _ _ B1) as N. rewrite Forall_forall in N. split.
    - apply N. apply in_flat_map. exists c. split; auto. now left.
    - apply Forall_forall. intros x Hx. apply N. apply in_flat_map. exists c. split; auto. now right. }
  assert (Gr : groups h2 (map snd ps) = groups h1 (map snd ps)).
  { apply groups_ext; auto. apply Forall_forall. intros c Hc. apply (Lv c Hc). }
  assert (BB : blk h0 h2 (groups h2 (map snd ps) ++ all_deps h2 ks)) by (rewrite Gr; now apply (blk_app h0 h1 h2)).
  destruct BB as [Be Bn Bd].
  constructor; cbn [s_cons]; unfold cells; cbn [s_prims]; auto.
  - unfold serialize. cbn [s_prims s_next s_cons]. rewrite S. destruct t as [tp tn tc]. cbn [t_prims t_next t_cons] in *. f_equal.
    apply map_pair_eq; rewrite map_map; cbn [fst snd]; [exact P1|]. rewrite <- S1, map_map. apply map_ext_in. intros [k c] Hc. cbn [snd].
    assert (I : In c (map snd ps)) by (change c with (snd (k, c)); now apply in_map). destruct (Lv c I). now apply ext_ser.
  - now rewrite <- C1.
  - rewrite <- C1. exact L.
Qed.
Lemma ext_head h c l : In c l -> In c (groups h l).
Proof. intros H. apply in_flat_map. exists c. split; auto. now left. Qed.
Lemma nodup_heads h l : NoDup (groups h l) -> NoDup l.
Proof.
  induction l as [|a l IH]; simpl; intros H; constructor; inversion H as [|? ? X Y]; subst.
  - intros K. apply X. apply in_or_app. right. now apply ext_head.
  - apply IH. clear - Y. induction (prim_refs h a) as [|b r IHr]; simpl in *; auto. inversion Y; subst. auto.
Qed.
Lemma nodup_app_l {T} (l l' : list T) : NoDup (l ++ l') -> NoDup l.
Proof. induction l as [|a l IH]; simpl; intros H; constructor; inversion H; subst; auto. rewrite in_app_iff in *. tauto. Qed.
Lemma nodup_app_disj {T} (l l' : list T) x : NoDup (l ++ l') -> In x l -> In x l' -> False.
Proof. induction l as [|a l IH]; simpl; intros H K K'; [easy|]. inversion H; subst. destruct K as [<-|K]; auto. rewrite in_app_iff in *. tauto. Qed.
Lemma copy_valid h0 h' s' t : StronglySorted N.lt (map fst (t_prims t)) -> fresh_copy h0 h' s' t -> heap_ok h0 -> valid h' s'.
Proof.
  intros So C H0. destruct C as [Ce Cs Cn Cd Cc Ck Ch]. rewrite Forall_forall in Cn. constructor; auto.
  - rewrite <- Cs in So. unfold serialize in So. cbn [t_prims] in So. rewrite map_map in So. cbn [fst] in So. exact So.
  - apply (nodup_heads h'). eapply nodup_app_l. apply Cd.
  - rewrite Cc. apply seq_NoDup.
  - intros c [id Hid]. apply Cn. apply in_or_app. left. apply ext_head. unfold cells.
    unfold get_primitive_by_id in Hid. clear - Hid. induction (s_prims s') as [|[k v] m IH]; simpl in *; [discriminate|]. destruct (id =? k)%N; [injection Hid as <-; now left|right; auto].
  - intros k Hk. rewrite Cc in Hk. apply in_seq in Hk. lia.
Qed.

(** ** What two sketches with the same serialised form have in common *)
Lemma ser_prim_data h h' c c' : ser_prim h c = ser_prim h' c' -> prim_data h c = prim_data h' c' /\ prim_grad h c = prim_grad h' c'.
Proof.
  destruct c, c'; cbn [ser_prim]; intros E; try discriminate; injection E; clear E; cbn [prim_data prim_grad]; intros; split; try congruence.
Qed.
Lemma ser_con_loss h h' c c' : ser_con h c = ser_con h' c' -> loss_value h c = loss_value h' c'.
Proof.
  destruct c, c'; cbn [ser_con]; unfold ser_line, ser_arc; intros E; try discriminate; injection E; clear E; intros;
  cbn [loss_value]; unfold current_angle, current_distance, current_hdistance, current_vdistance, line_start, line_end, pdata, arc_start_point, arc_end_point;
  repeat match goal with E : _ = _ |- _ => rewrite ?E; clear E end; reflexivity.
Qed.
End SL.
