(** * Lemmas for C64 *)
From Coq Require Import List NArith Arith Bool Lia.
From Verif Require Import Arith Vec Prim Cons Sketch Spec ExactSpec HeapLemmas SpecLemmas WfLemmas Borrow BorrowSpec.
Import ListNotations.

(** induction on guards *)
Lemma guard_ind2 (P : guard -> Prop) :
  (forall x c inner, (forall g, In g inner -> P g) -> P (Guard x c inner)) -> forall g, P g.
Proof.
  intros H. fix IH 1. intros [x c inner]. apply H.
  induction inner as [|g l IHl]; [intros g []|]. intros g' [<-|Hg]; [apply IH | apply IHl, Hg].
Qed.

Definition rank (c : cellid) : nat :=
  match c with IPrim (PPoint _) => 0 | IPrim _ => 1 | ICon _ => 2 end.
Definition cell_of (g : guard) : cellid := match g with Guard _ c _ => c end.
Inductive ranked : guard -> Prop :=
| rk : forall x c inner, (forall g, In g inner -> ranked g /\ rank (cell_of g) < rank c) -> ranked (Guard x c inner).
Lemma ranked_ok g : ranked g -> forall held, (forall y c, In (y, c) held -> rank (cell_of g) < rank c) -> no_conflict held g.
Proof.
  induction g as [x c inner IH] using guard_ind2. intros R held Hh. inversion R as [x' c' inner' Hi]; subst. constructor.
  - intros y Hy. apply Hh in Hy. simpl in Hy. lia.
  - intros g Hg. destruct (Hi g Hg) as [Rg Lt]. apply IH; auto. intros y d [[= <- <-]|Hd]; auto. apply Hh in Hd. simpl in Hd. lia.
Qed.
Inductive shared : guard -> Prop :=
| sh : forall c inner, (forall g, In g inner -> shared g) -> shared (Guard false c inner).
Lemma shared_ok g : shared g -> forall held, (forall y c, In (y, c) held -> y = false) -> no_conflict held g.
Proof.
  induction g as [x c inner IH] using guard_ind2. intros R held Hh. inversion R as [c' inner' Hi]; subst. constructor.
  - intros y Hy. split; auto. eauto.
  - intros g Hg. apply IH; auto. intros y d [[= <- <-]|Hd]; eauto.
Qed.
(** the cells of a guard and of those taken during it *)
Inductive touches : guard -> cellid -> Prop :=
| t_here : forall x c inner, touches (Guard x c inner) c
| t_inner : forall x c inner g d, In g inner -> touches g d -> touches (Guard x c inner) d.
Lemma extra_ok g : forall held extra, no_conflict held g ->
  (forall y c, In (y, c) extra -> ~ touches g c) -> no_conflict (held ++ extra) g.
Proof.
  induction g as [x c inner IH] using guard_ind2. intros held extra N Hx. inversion N as [x' c' inner' Hb Hi]; subst. constructor.
  - intros y Hy. apply in_app_iff in Hy as [Hy|Hy]; [now apply Hb|]. exfalso. apply (Hx y c Hy). constructor.
  - intros g Hg. apply (IH g Hg ((x, c) :: held) extra); auto. intros y d Hd T. apply (Hx y d Hd). econstructor 2; eauto.
Qed.

Section L.
Context {F : Type} {A : Arith F}.
Variable h : heap F.
Variable s : sketch.

Lemma rk_leaf x c : ranked (Guard x c []).
Proof. constructor. intros g []. Qed.
Lemma sh_leaf c : shared (Guard false c []).
Proof. constructor. intros g []. Qed.
Hint Resolve rk_leaf sh_leaf : bdb.
Ltac inl0 := repeat match goal with
  | H : _ \/ _ |- _ => destruct H as [H|H]
  | H : False |- _ => destruct H
  | H : _ = ?x |- _ => is_var x; subst x
  | H : ?x = _ |- _ => is_var x; subst x
  | H : In _ _ |- _ => progress simpl in H
  end.
Ltac onec := constructor; let g := fresh in let H := fresh in intros g H; inl0.
Ltac rks := repeat first [apply rk_leaf | onec; (split; [apply rk_leaf | unfold arcC, startP, endP, circC; simpl; lia])].
Ltac shs := repeat first [apply sh_leaf | onec; apply sh_leaf].

Lemma loss_props (c : con F) g : In g (loss_guards h c) -> shared g /\ ranked g /\ rank (cell_of g) < 2.
Proof.
  destruct c; simpl; intros H; inl0; (split; [shs|split; [rks|unfold arcC, startP, endP, circC; simpl; lia]]).
Qed.
Lemma update_props (c : con F) g : In g (update_guards h c) -> ranked g /\ rank (cell_of g) < 2.
Proof.
  unfold update_guards. intros H. apply in_app_iff in H as [H|H]; [apply loss_props in H; tauto|].
  destruct c; simpl in H; inl0; (split; [rks|unfold arcC, startP, endP, circC; simpl; lia]).
Qed.
Lemma each_in (f : pcell -> list guard) g : In g (each s f) -> exists c, In g (f c) /\ In c (cells_of s).
Proof. unfold each. intros H. apply in_flat_map in H as (c & Hc & Hg). eauto. Qed.
Lemma con_loss_ranked k : ranked (Guard false (ICon k) (loss_guards h (getK h k))).
Proof. constructor. intros g Hg. apply loss_props in Hg as (_ & R & L). split; auto. Qed.
Lemma con_loss_shared k : shared (Guard false (ICon k) (loss_guards h (getK h k))).
Proof. constructor. intros g Hg. now apply loss_props in Hg as (S & _). Qed.
Lemma con_upd_ranked k : ranked (Guard true (ICon k) (update_guards h (getK h k))).
Proof. constructor. intros g Hg. apply update_props in Hg as (R & L). split; auto. Qed.
Lemma ser_props c : shared (prim_ser h c) /\ ranked (prim_ser h c) /\ rank (cell_of (prim_ser h c)) < 2.
Proof. destruct c; simpl; (split; [shs|split; [rks|unfold arcC, startP, endP, circC; simpl; lia]]). Qed.

Definition fine (g : guard) : Prop := ranked g \/ shared g.
Lemma fine_ok g : fine g -> no_conflict [] g.
Proof. intros [R|R]; [apply ranked_ok|apply shared_ok]; auto; intros y c []. Qed.
Ltac each_leaf H := apply each_in in H as (? & H & _); inl0; first [apply rk_leaf | apply sh_leaf].
Lemma gradient_fine g : In g (gradient_guards h s) -> ranked g.
Proof.
  unfold gradient_guards, zero_guards, n_dofs_guards, update_con. rewrite !in_app_iff, in_flat_map.
  intros [H|[(k & _ & H)|[H|H]]]; try each_leaf H. inl0. apply con_upd_ranked.
Qed.
Lemma call_fine o g : In g (call_guards h s o) -> fine g.
Proof.
  destruct o; simpl; intros H.
  - inl0. left. apply rk_leaf.
  - inl0. left. apply rk_leaf.
  - left. unfold n_dofs_guards in H. each_leaf H.
  - left. unfold get_data_guards, n_dofs_guards in H. apply in_app_iff in H as [H|H]; each_leaf H.
  - left. unfold losses_guards in H. apply in_map_iff in H as (k & <- & _). apply con_loss_ranked.
  - left. each_leaf H.
  - left. now apply gradient_fine.
  - left. unfold jacobian_guards, zero_guards, n_dofs_guards, update_con in H. rewrite in_app_iff, in_flat_map in H.
    destruct H as [H|(k & _ & H)]; [each_leaf H|]. rewrite !in_app_iff in H. destruct H as [H|[H|H]]; try each_leaf H.
    inl0. apply con_upd_ranked.
  - left. unfold set_data_guards, n_dofs_guards in H. apply in_app_iff in H as [H|H]; each_leaf H.
  - left. unfold check_guards in H. rewrite !in_app_iff in H. destruct H as [H|[H|H]]; [now apply gradient_fine | inl0; apply con_loss_ranked |].
    apply each_in in H as (c & H & _). apply in_app_iff in H as [H|H]; [inl0; apply rk_leaf|].
    apply in_concat in H as (l & Hl & H). apply repeat_spec in Hl. subst l. inl0; first [apply rk_leaf | apply con_loss_ranked].
  - apply in_flat_map in H as (d & _ & H). right. destruct d as [c|[]|c|p q]; simpl in H; inl0; shs.
  - left. unfold serialize_guards in H. apply in_app_iff in H as [H|H].
    + apply each_in in H as (c & H & _). inl0. apply ser_props.
    + apply in_map_iff in H as (k & <- & _). constructor. intros g Hg. apply in_map_iff in Hg as (c & <- & _). destruct (ser_props c) as (_ & R & L). split; auto.
Qed.
Lemma C64_ok_lemma l : borrows_ok [] (calls_guards h s l).
Proof. intros g Hg. apply in_flat_map in Hg as (o & _ & Hg). apply fine_ok. eapply call_fine; eauto. Qed.

Ltac each_sleaf H := apply each_in in H as (? & H & _); inl0; first [apply rk_leaf | apply sh_leaf].
Lemma read_shared o g : read_only o = true -> In g (call_guards h s o) -> shared g.
Proof.
  destruct o; simpl; intros Hr H; try discriminate.
  - inl0. apply sh_leaf.
  - inl0. apply sh_leaf.
  - unfold n_dofs_guards in H. each_leaf H.
  - unfold get_data_guards, n_dofs_guards in H. apply in_app_iff in H as [H|H]; each_leaf H.
  - unfold losses_guards in H. apply in_map_iff in H as (k & <- & _). apply con_loss_shared.
  - each_leaf H.
  - apply in_flat_map in H as (d & _ & H). destruct d as [c|[]|c|p q]; simpl in H; inl0; shs.
  - unfold serialize_guards in H. apply in_app_iff in H as [H|H].
    + apply each_in in H as (c & H & _). inl0. apply ser_props.
    + apply in_map_iff in H as (k & <- & _). constructor. intros g Hg. apply in_map_iff in Hg as (c & <- & _). apply ser_props.
Qed.
Lemma C64_readers_lemma held l : (forall y c, In (y, c) held -> y = false) -> forallb read_only l = true ->
  borrows_ok held (calls_guards h s l).
Proof.
  intros Hh Hl g Hg. apply in_flat_map in Hg as (o & Ho & Hg). apply shared_ok; auto.
  eapply read_shared; eauto. rewrite forallb_forall in Hl. auto.
Qed.


(** ** cells a call touches *)
Lemma touch_leaf x c d : touches (Guard x c []) d -> d = c.
Proof. inversion 1; subst; auto. destruct H4. Qed.
Lemma deps_ref (k : con F) c : In c (con_refs k) -> In c (deps h k).
Proof. intros H. unfold deps. apply in_flat_map. exists c. split; auto. now left. Qed.
Lemma deps_sub (k : con F) c d : In c (con_refs k) -> In d (prim_refs h c) -> In d (deps h k).
Proof. intros H G. unfold deps. apply in_flat_map. exists c. split; auto. now right. Qed.
Ltac tch := repeat match goal with
  | H : touches (rd _ []) _ |- _ => apply touch_leaf in H
  | H : touches (wr _ []) _ |- _ => apply touch_leaf in H
  | H : touches (rd _ _) _ |- _ => inversion H; subst; clear H
  | H : touches (wr _ _) _ |- _ => inversion H; subst; clear H
  end; inl0.
Lemma update_touches (k : con F) g d : In g (update_guards h k) -> touches g d -> exists c, d = IPrim c /\ In c (deps h k).
Proof.
  unfold update_guards; intros H T; destruct k; simpl in H; inl0; tch; inl0; tch; inl0; tch; eexists; (split; [reflexivity|]);
  first [apply deps_ref; simpl; tauto | 
         match goal with
         | |- In (startP h ?l) _ => apply (deps_sub _ (PLine l))
         | |- In (endP h ?l) _ => apply (deps_sub _ (PLine l))
         | |- In (arcC h ?l) _ => apply (deps_sub _ (PArc l))
         end; simpl; unfold startP, endP, arcC; tauto].
Qed.
Lemma loss_touches (k : con F) g d : In g (loss_guards h k) -> touches g d -> exists c, d = IPrim c /\ In c (deps h k).
Proof. intros H. apply update_touches. unfold update_guards. apply in_app_iff. now left. Qed.
Ltac each_t H T := apply each_in in H as (? & H & ?); inl0; apply touch_leaf in T; subst; left; assumption.
Hypothesis V : valid h s.
Lemma reg_cells c : In c (cells_of s) -> registered s c.
Proof. intros H. now apply (valid_reg _ _ _ V). Qed.
Lemma upd_reads k g d : In k (s_cons s) -> In g (update_con h k) -> touches g d -> reads h s d.
Proof.
  intros Hk Hg T. unfold update_con in Hg. inl0. inversion T; subst; [exact Hk|].
  apply update_touches with (k := getK h k) in H4 as (c & -> & Hc); auto. right. eauto.
Qed.
Lemma loss_reads k g d : In k (s_cons s) -> g = Guard false (ICon k) (loss_guards h (getK h k)) -> touches g d -> reads h s d.
Proof.
  intros Hk -> T. inversion T; subst; [exact Hk|].
  apply loss_touches with (k := getK h k) in H4 as (c & -> & Hc); auto. right. eauto.
Qed.
Lemma each_reads (f : pcell -> list guard) g d : (forall c g', In g' (f c) -> exists x, g' = Guard x (IPrim c) []) ->
  In g (each s f) -> touches g d -> reads h s d.
Proof.
  intros Hf Hg T. apply each_in in Hg as (c & Hg & Hc). apply Hf in Hg as (x & ->). apply touch_leaf in T. subst. left. now apply reg_cells.
Qed.
Ltac lf := let H := fresh in intros ? ? H; inl0; eexists; reflexivity.
Lemma method_reads o g d : method o = true -> In g (call_guards h s o) -> touches g d -> reads h s d.
Proof.
  unfold call_guards; destruct o; simpl; intros M Hg T; try discriminate;
  unfold get_data_guards, gradient_guards, jacobian_guards, set_data_guards, n_dofs_guards, zero_guards, losses_guards in Hg;
  rewrite ?in_app_iff, ?in_flat_map in Hg; repeat (destruct Hg as [Hg|Hg]);
  try (eapply each_reads; [|eassumption|eassumption]; lf).
  - apply in_map_iff in Hg as (k & <- & Hk). eapply loss_reads; eauto.
  - destruct Hg as (k & Hk & Hg). eapply upd_reads; eauto.
  - destruct Hg as (k & Hk & Hg). rewrite !in_app_iff in Hg. destruct Hg as [Hg|[Hg|Hg]];
    try (eapply each_reads; [|eassumption|eassumption]; lf). eapply upd_reads; eauto.
Qed.
Lemma C64_elsewhere_lemma held l : (forall y c, In (y, c) held -> ~ reads h s c) -> forallb method l = true ->
  borrows_ok held (calls_guards h s l).
Proof.
  intros Hh Hl g Hg. pose proof (C64_ok_lemma l g Hg) as N. apply (extra_ok g [] held N).
  intros y c Hc T. apply in_flat_map in Hg as (o & Ho & Hg). rewrite forallb_forall in Hl.
  apply (Hh y c Hc). eapply method_reads; eauto.
Qed.

(** ** guards held by the caller on the sketch's own cells block it *)
Lemma cells_reg c : registered s c -> In c (cells_of s).
Proof. intros H. now apply (valid_reg _ _ _ V). Qed.
Lemma each_intro (f : pcell -> list guard) c g : In c (cells_of s) -> In g (f c) -> In g (each s f).
Proof. intros. apply in_flat_map. eauto. Qed.
Lemma refused held y x c inner : In (y, c) held -> y = true \/ x = true -> ~ no_conflict held (Guard x c inner).
Proof. intros H E N. inversion N as [? ? ? B]; subst. destruct (B y H). destruct E; congruence. Qed.
Lemma C64_blocked_lemma held y c : In (y, c) held ->
  match c with IPrim c => registered s c | ICon k => In k (s_cons s) end ->
  ~ borrows_ok held (calls_guards h s [CGetGradient]) /\
  (forall p, c = IPrim p -> ~ borrows_ok held (calls_guards h s [CSetData]) /\
     (y = true -> ~ borrows_ok held (calls_guards h s [CGetData]))) /\
  (y = true -> (exists k, c = ICon k) -> ~ borrows_ok held (calls_guards h s [CGetLosses])).
Proof.
  intros Hh Hc. unfold borrows_ok, calls_guards. simpl. rewrite app_nil_r. destruct c as [c|k].
  - apply cells_reg in Hc. split; [|split].
    + intros B. apply (refused held y true (IPrim c) [] Hh); auto. apply B. unfold gradient_guards. apply in_app_iff. left.
      apply each_intro with c; auto. now left.
    + intros p [= <-]. split; [|intros ->]; rewrite app_nil_r; intros B.
      * apply (refused held y true (IPrim c) [] Hh); auto. apply B. unfold set_data_guards. apply in_app_iff. right.
        apply each_intro with c; auto. right. now left.
      * apply (refused held true false (IPrim c) [] Hh); auto. apply B. unfold get_data_guards. apply in_app_iff. right.
        apply each_intro with c; auto. now left.
    + intros _ (k & [=]).
  - split; [|split; [intros p [=]|]].
    + intros B. eapply (refused held y true (ICon k) _ Hh); auto. apply B. unfold gradient_guards. rewrite !in_app_iff. right; left.
      apply in_flat_map. exists k. split; auto. now left.
    + intros -> _. rewrite app_nil_r. intros B. eapply (refused held true false (ICon k) _ Hh); auto. apply B.
      unfold losses_guards. apply in_map_iff. exists k. auto.
Qed.

(** ** every cell that can be written is written under an exclusive guard *)
Lemma takes_leaf (x : bool) c : takes (Guard x c []) x c.
Proof. constructor. Qed.
Lemma writes_app_l g1 g2 c : writes g1 c -> writes (g1 ++ g2) c.
Proof. intros (g & H & T). exists g. split; auto. apply in_app_iff. now left. Qed.
Lemma writes_app_r g1 g2 c : writes g2 c -> writes (g1 ++ g2) c.
Proof. intros (g & H & T). exists g. split; auto. apply in_app_iff. now right. Qed.
Lemma wr_point p : writes (add_point_guards p) (IPrim (PPoint p)).
Proof. eexists. split; [left; reflexivity|]. constructor. Qed.
Lemma wr_line l : writes (add_line_guards h l) (IPrim (PLine l)).
Proof. eexists. split; [left; reflexivity|]. constructor. Qed.
Lemma wr_start l : writes (add_line_guards h l) (IPrim (PPoint (l_start (getL h l)))).
Proof. eexists. split; [left; reflexivity|]. eapply tk_inner; [left; reflexivity|]. constructor. Qed.
Lemma wr_end l : writes (add_line_guards h l) (IPrim (PPoint (l_end (getL h l)))).
Proof. eexists. split; [left; reflexivity|]. eapply tk_inner; [right; left; reflexivity|]. constructor. Qed.
Lemma wr_arc l : writes (add_arc_guards h l) (IPrim (PArc l)).
Proof. eexists. split; [left; reflexivity|]. constructor. Qed.
Lemma wr_center l : writes (add_arc_guards h l) (IPrim (PPoint (a_center (getA h l)))).
Proof. eexists. split; [left; reflexivity|]. eapply tk_inner; [left; reflexivity|]. constructor. Qed.
Ltac nav := first [ apply wr_point | apply wr_line | apply wr_start | apply wr_end | apply wr_arc | apply wr_center
  | apply writes_app_l; solve [nav] | apply writes_app_r; solve [nav] ].
Lemma update_writes (k : con F) c : In c (deps h k) -> writes (update_guards h k) (IPrim c).
Proof.
  intros H. unfold deps in H. apply in_flat_map in H as (r & Hr & H). unfold update_guards. apply writes_app_r.
  destruct k; simpl in Hr; inl0; nav.
Qed.
Lemma zero_writes c : In c (cells s) -> writes (zero_guards s) (IPrim c).
Proof. intros H. exists (wr c []). split; [|constructor]. apply in_flat_map. exists c. split; auto. now left. Qed.
Lemma con_writes k c : In c (deps h (getK h k)) -> writes (update_con h k) (IPrim c).
Proof. intros H. apply update_writes in H as (g & Hg & T). eexists. split; [left; reflexivity|]. econstructor 2; eauto. Qed.
Lemma writes_flat {X} (f : X -> list guard) l x c : In x l -> writes (f x) c -> writes (flat_map f l) c.
Proof. intros H (g & Hg & T). exists g. split; auto. apply in_flat_map. eauto. Qed.
Lemma gradient_writes c : In c (cells s) \/ (exists k, In k (s_cons s) /\ In c (deps h (getK h k))) ->
  writes (gradient_guards h s) (IPrim c).
Proof.
  intros [H|(k & Hk & H)]; unfold gradient_guards; [now apply writes_app_l, zero_writes|].
  apply writes_app_r, writes_app_l. eapply writes_flat; [exact Hk | now apply con_writes].
Qed.
Lemma jacobian_writes c : (exists k, In k (s_cons s) /\ (In c (cells s) \/ In c (deps h (getK h k)))) ->
  writes (jacobian_guards h s) (IPrim c).
Proof.
  intros (k & Hk & H). unfold jacobian_guards. apply writes_app_r. eapply writes_flat; [exact Hk|].
  destruct H; [now apply writes_app_l, zero_writes | now apply writes_app_r, writes_app_l, con_writes].
Qed.
Lemma set_writes c : In c (cells s) -> writes (set_data_guards s) (IPrim c).
Proof.
  intros H. unfold set_data_guards. apply writes_app_r. exists (wr c []). split; [|constructor].
  apply in_flat_map. exists c. split; auto. right. now left.
Qed.
End L.
