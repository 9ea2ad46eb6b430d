(** * Gradient descent does not see unconstrained primitives (for C95) *)
From Coq Require Import List ZArith NArith Arith Bool Lia.
From Verif Require Import Arith Vec Prim Cons Sketch Solve Api Spec HeapLemmas SolveLemmas BookLemmas WfLemmas DataLemmas SpecLemmas PureLemmas
  ArithR ExactSpec GradLemmas RestLemmas StepLemmas StayLemmas ResumeLemmas SpareSpec.
Import ListNotations.

(** ** Vectors with more entries *)
Section P.
Context {T : Type}.
Variable keep : pcell -> bool.
Inductive pads (b : pcell -> list T) : list pcell -> list T -> list T -> Prop :=
| pd_nil : pads b [] [] []
| pd_keep c cs x u v : keep c = true -> length x = dim c -> pads b cs u v -> pads b (c :: cs) (x ++ u) (x ++ v)
| pd_skip c cs u v : keep c = false -> pads b cs u v -> pads b (c :: cs) u (b c ++ v).
Lemma pads_ext b b' cs u v : (forall c, In c cs -> keep c = false -> b' c = b c) -> pads b cs u v -> pads b' cs u v.
Proof.
  intros H P. induction P as [|c cs x u v Hk Hl P IH|c cs u v Hk P IH]; [constructor| |].
  - constructor; auto. apply IH. intros; apply H; auto. now right.
  - rewrite <- (H c) by (auto; now left). constructor; auto. apply IH. intros; apply H; auto. now right.
Qed.
Lemma pads_flat b (f f' : pcell -> list T) cs : (forall c, length (f c) = dim c) -> (forall c, In c cs -> keep c = true -> f' c = f c) ->
  (forall c, In c cs -> keep c = false -> f' c = b c) -> pads b cs (flat_map f (filter keep cs)) (flat_map f' cs).
Proof.
  intros Hl. induction cs as [|c cs IH]; intros H1 H2; [constructor|]. cbn [filter flat_map].
  assert (I : pads b cs (flat_map f (filter keep cs)) (flat_map f' cs)) by (apply IH; intros; [apply H1|apply H2]; auto; now right).
  destruct (keep c) eqn:E; cbn [flat_map].
  - rewrite (H1 c) by (auto; now left). now constructor.
  - rewrite (H2 c) by (auto; now left). now constructor.
Qed.
End P.
Lemma map2_app {X Y Zb} (f : X -> Y -> Zb) x1 : forall x2 u1 u2, length x1 = length x2 -> map2 f (x1 ++ u1) (x2 ++ u2) = map2 f x1 x2 ++ map2 f u1 u2.
Proof. induction x1 as [|a x1 IH]; intros [|b x2] u1 u2 H; try discriminate; [reflexivity|]. cbn. f_equal. apply IH. now injection H. Qed.
Lemma pads_map {X Y} keep (f : X -> Y) b cs u v : pads keep b cs u v -> pads keep (fun c => map f (b c)) cs (map f u) (map f v).
Proof.
  induction 1 as [|c cs x u v Hk Hl P IH|c cs u v Hk P IH]; [constructor| |]; rewrite ?map_app; [constructor; auto; now rewrite map_length|].
  now apply pd_skip with (b := fun c => map f (b c)).
Qed.
Lemma pads_map2 {X Y Zb} keep (f : X -> Y -> Zb) b1 b2 cs : (forall c, In c cs -> keep c = false -> length (b1 c) = length (b2 c)) ->
  forall u1 v1 u2 v2, pads keep b1 cs u1 v1 -> pads keep b2 cs u2 v2 -> pads keep (fun c => map2 f (b1 c) (b2 c)) cs (map2 f u1 u2) (map2 f v1 v2).
Proof.
  intros Hb u1 v1 u2 v2 P1. revert u2 v2. induction P1 as [|c cs x u v Hk Hl P IH|c cs u v Hk P IH]; intros u2 v2 P2; inversion P2; subst; try congruence.
  - constructor.
  - rewrite !map2_app by congruence. constructor; auto; [rewrite map2_length; congruence|]. apply IH; auto. intros; apply Hb; auto. now right.
  - rewrite !map2_app by (apply Hb; auto; now left). apply pd_skip with (b := fun c => map2 f (b1 c) (b2 c)); auto. apply IH; auto. intros; apply Hb; auto. now right.
Qed.

Section S.
Context {F : Type} {A : Arith F}.
Variables (s s' : sketch) (h0 : heap F).
Hypothesis V : valid h0 s.
Hypothesis V' : valid h0 s'.
Hypothesis W : with_spare h0 s s'.
Let keep := has_cell s.
Let cs := cells s'.
Let Zb : pcell -> list F := fun c => repeat f0 (dim c).
Let NZ : pcell -> list F := fun c => repeat (fneg f0) (dim c).
Let D : pcell -> list F := prim_data h0.
(** the step lengths that the line search can try when [n] trials are left *)
Variable okN : nat -> F -> Prop.
Hypothesis okA1 : okN ls_max_iter f1.
Hypothesis okA15 : forall n a, okN (S n) a -> okN n (a *f flit 15 1).
Hypothesis okAh : forall n a, okN (S n) a -> okN n (a *f fhalf).
Let okA (a : F) : Prop := exists n, okN (S n) a.
Hypothesis fin0 : ffin f0 = true.
Hypothesis finD : forall c, In c cs -> keep c = false -> all_finite (D c) = true.
Hypothesis step1 : forall a c d, In c cs -> keep c = false -> In d (D c) -> okA a -> d +f a *f fneg f0 = d.
Hypothesis step2 : forall a c d, In c cs -> keep c = false -> In d (D c) -> okA a -> a *f fneg f0 +f f1 *f d = d.
Hypothesis dot1 : forall u u' v v', pads keep Zb cs u u' -> pads keep NZ cs v v' -> all_finite u = true -> all_finite v = true -> vdot u' v' = vdot u v.
Hypothesis dot2 : forall u u', pads keep Zb cs u u' -> all_finite u = true -> vdot u' u' = vdot u u.
Hypothesis finneg : forall x : F, ffin x = true -> ffin (fneg x) = true.

Lemma keep_iff c : keep c = true <-> In c (cells s).
Proof.
  unfold keep, has_cell. rewrite existsb_exists. split; [intros (x & Hx & E); apply pcell_eqb_eq in E; now subst|].
  intros H. exists c. split; auto. apply pcell_eqb_refl.
Qed.
Lemma sp_un c k : In c cs -> keep c = false -> In k (s_cons s) -> ~ In c (deps h0 (getK h0 k)).
Proof.
  intros Hc Hk. destruct W as (_ & _ & H). apply H.
  - now apply (valid_reg _ _ _ V').
  - intros R. apply (valid_reg _ _ _ V) in R. apply keep_iff in R. congruence.
Qed.

Definition T (h1 h2 : heap F) : Prop := sdeq h1 h2 /\ struct_eq h0 h1 /\ forall c, In c cs -> keep c = false -> prim_data h1 c = prim_data h0 c.
Definition outrel {X Y} (Q : X -> Y -> Prop) (o1 : out X) (o2 : out Y) : Prop :=
  match o1, o2 with Val x, Val y => Q x y | Panic, Panic => True | _, _ => False end.
Definition rel {X Y} (Q : X -> Y -> Prop) (m1 : M F X) (m2 : M F Y) : Prop :=
  forall h1 h2, T h1 h2 -> T (fst (m1 h1)) (fst (m2 h2)) /\ outrel Q (snd (m1 h1)) (snd (m2 h2)).
Lemma rel_ret {X Y} (Q : X -> Y -> Prop) x y : Q x y -> rel Q (mret x) (mret y). Proof. intros H h1 h2 E. now split. Qed.
Lemma rel_bind {X Y X' Y'} (Q : X -> Y -> Prop) (Q' : X' -> Y' -> Prop) m1 m2 f1 f2 : rel Q m1 m2 -> (forall x y, Q x y -> rel Q' (f1 x) (f2 y)) ->
  rel Q' (mbind m1 f1) (mbind m2 f2).
Proof.
  intros Hm Hf h1 h2 E. destruct (Hm h1 h2 E) as [E1 O]. unfold mbind. destruct (m1 h1) as [k1 [x|]], (m2 h2) as [k2 [y|]]; cbn [fst snd outrel] in *; try contradiction.
  - now apply Hf.
  - now split.
Qed.

Lemma T_sd h1 h2 k1 k2 : T h1 h2 -> sdeq h1 k1 -> sdeq h2 k2 -> T k1 k2.
Proof.
  intros (E & S & X) S1 S2. split; [|split].
  - eapply sd_pre; [apply sd_sym, S1|]. eapply sd_pre; [exact E|exact S2].
  - eapply struct_pre; [exact S|apply S1].
  - intros c Hc Hk. rewrite <- (X c Hc Hk). apply (proj2 S1 c I).
Qed.
Lemma T_ok h1 h2 c : T h1 h2 -> In c cs -> cell_ok h1 c.
Proof.
  intros (_ & S & _) Hc. assert (K : cell_ok h0 c) by (apply (v_live _ _ V'); now apply (valid_reg _ _ _ V')).
  destruct S as (E1&E2&E3&E4&E5&_). destruct c; simpl in *; rewrite ?E1, ?E3, ?E4, ?E5; auto; congruence.
Qed.
Lemma cells_sub c : In c (cells s) -> In c cs.
Proof. destruct W as (_ & E & _). rewrite E. intros H. now apply filter_In in H. Qed.
Lemma dofs_T h1 h2 u v : pads keep D cs u v -> length u = get_n_dofs h1 s <-> length v = get_n_dofs h2 s'.
Proof.
  intros P. rewrite !n_dofs_dims. destruct W as (_ & E & _). rewrite E. fold cs keep. clear - P.
  induction P as [|c cs x u v Hk Hl P IH|c cs u v Hk P IH]; cbn [filter]; [split; reflexivity| |]; rewrite Hk.
  - change (dims (c :: filter keep cs)) with (dim c + dims (filter keep cs)). change (dims (c :: cs)) with (dim c + dims cs). rewrite !app_length, Hl. lia.
  - change (dims (c :: cs)) with (dim c + dims cs). rewrite app_length. unfold D. rewrite prim_data_dim. lia.
Qed.

Lemma grad_T : rel (fun g g' => pads keep Zb cs g g' /\ all_finite g = true) (get_gradient s) (get_gradient s').
Proof.
  intros h1 h2 H. destruct W as (Ec & Es & _).
  assert (HT : T (fst (get_gradient s h1)) (fst (get_gradient s' h2))).
  { apply (T_sd h1 h2); auto; [apply get_gradient_sd | apply get_gradient_sd]. }
  split; [exact HT|]. clear HT.
  assert (G0 : grel (cells s) (zero_all s h1) (zero_all s' h2)).
  { split.
    - eapply sd_pre; [apply sd_sym, zero_all_sd|]. eapply sd_pre; [apply H | apply zero_all_sd].
    - intros c Hc. unfold zero_all. destruct (zero_list (cells s) h1) as [Z1 _]; [intros x Hx; apply (T_ok h1 h2); auto; now apply cells_sub|].
      destruct (zero_list (cells s') h2) as [Z2 _]; [intros x Hx; eapply cell_ok_sd; [apply H|]; now apply (T_ok h1 h2)|].
      rewrite Z1, Z2; auto. now apply cells_sub. }
  assert (G1 : same_out (cells s) (mfor (s_cons s) (fun k h => update_gradient (getK h k) h) (zero_all s h1))
                                  (mfor (s_cons s) (fun k h => update_gradient (getK h k) h) (zero_all s' h2))).
  { apply for_rel; [|exact G0]. intros k k1 k2 Hk. rewrite (struct_getK _ _ _ (proj1 (proj1 Hk))). now apply update_rel. }
  assert (N : forall c, In c cs -> keep c = false ->
    prim_grad (fst (mfor (s_cons s) (fun k h => update_gradient (getK h k) h) (zero_all s' h2))) c = Zb c).
  { intros c Hc Hk. 
    assert (Z0 : prim_grad (zero_all s' h2) c = Zb c).
    { apply zero_list; auto. intros x Hx. eapply cell_ok_sd; [apply H|]. now apply (T_ok h1 h2). }
    rewrite <- Z0.
    assert (S0 : struct_eq h0 (zero_all s' h2)).
    { eapply struct_pre; [apply H|]. eapply struct_pre; [apply (proj1 H)|apply zero_all_sd]. }
    revert S0. generalize (zero_all s' h2). clear Z0 G0 G1.
    assert (Hu : forall k, In k (s_cons s) -> ~ In c (deps h0 (getK h0 k))) by (intros k; now apply sp_un).
    revert Hu. generalize (s_cons s). induction l as [|k ks IH]; intros Hu x S0; [reflexivity|]. simpl. unfold mbind.
    assert (E := update_other x (getK x k) c). assert (S1 := update_sd (getK x k) x).
    assert (Nn : ~ In c (deps x (getK x k))).
    { rewrite (struct_getK _ _ _ S0). unfold deps. rewrite (flat_map_ext _ (fun r => r :: prim_refs h0 r)).
      - apply Hu. now left.
      - intros r. now rewrite (struct_refs _ _ _ S0). }
    destruct (update_gradient (getK x k) x) as [x2 [u|]]; cbn [fst] in *; [|now apply E].
    rewrite IH; [now apply E | intros; apply Hu; now right | eapply struct_pre; [exact S0|apply S1]]. }
  unfold get_gradient, mbind at 1 3. rewrite Ec.
  destruct (mfor (s_cons s) _ (zero_all s h1)) as [k1 o1], (mfor (s_cons s) _ (zero_all s' h2)) as [k2 o2].
  destruct G1 as [Eo Gr]. cbn [fst snd] in *. subst o2. destruct o1; [|exact I].
  unfold mbind, massert. fold cs.
  assert (EF : forallb (fun c => all_finite (prim_grad k2 c)) cs = forallb (fun c => all_finite (prim_grad k1 c)) (cells s)).
  { rewrite Es. fold cs keep.
    assert (Gk : forall c, In c cs -> keep c = true -> prim_grad k1 c = prim_grad k2 c) by (intros c _ Hk; apply Gr; now apply keep_iff).
    clear - Gk N fin0. induction cs as [|c l IH]; [reflexivity|]. cbn [forallb filter].
    rewrite IH by (intros; first [apply N | apply Gk]; auto; now right). destruct (keep c) eqn:E; cbn [forallb].
    - rewrite (Gk c) by (auto; now left). reflexivity.
    - rewrite (N c) by (auto; now left). unfold Zb. replace (all_finite (repeat f0 (dim c))) with true; [reflexivity|].
      unfold all_finite. induction (dim c); cbn [repeat forallb]; [reflexivity|]. now rewrite fin0. }
  rewrite EF. destruct (forallb _ (cells s)) eqn:Ef; [|exact I]. cbn [mret snd outrel]. unfold stored_gradient. split; [|now apply flat_finite].
  rewrite Es. fold cs keep. apply pads_flat; [intros; apply prim_grad_dim | | exact N].
  intros c Hc Hk. symmetry. apply Gr. now apply keep_iff.
Qed.

Lemma pset_T c v : In c cs -> keep c = true -> rel eq (prim_set_data c v) (prim_set_data c v).
Proof.
  intros Hc Hk h1 h2 (E & S & X).
  assert (G : snd (prim_set_data c v h1) = snd (prim_set_data c v h2) /\ sdeq (fst (prim_set_data c v h1)) (fst (prim_set_data c v h2))).
  { destruct c as [l|l|l|l]; simpl; auto; unfold Point2_set_data, Arc_set_data, Circle_set_data, mbind, massert; destruct (_ && _); cbn [mret fst snd]; auto; (split; [reflexivity|]).
    - apply sd_nil. apply grel_setP; [now apply sd_nil | reflexivity | reflexivity | intros []].
    - apply sd_nil. apply grel_setA; try reflexivity; [now apply sd_nil | intros []].
    - now apply sdeq_setC. }
  destruct G as [G1 G2]. split.
  - split; [exact G2|]. split; [eapply struct_pre; [exact S|apply (set_struct c v h1)]|].
    intros d Hd Hkd. rewrite <- (X d Hd Hkd). pose proof (loop_other [c] d) as O.
    assert (N : ~ In d [c]) by (intros [->|[]]; congruence). specialize (O N v h1). cbn [set_data_loop] in O. 
    assert (Nd : d <> c) by (intros ->; congruence).
    clear O. destruct c as [l|l|l|l]; simpl; auto; unfold Point2_set_data, Arc_set_data, Circle_set_data, mbind, massert; destruct (_ && _); cbn [mret fst snd]; auto.
    + now apply data_setP_other.
    + now apply data_setA_other.
    + now apply data_setC_other.
  - rewrite <- G1. destruct (snd (prim_set_data c v h1)) as [[]|]; cbn [outrel]; auto.
Qed.
Lemma setl_T l : incl l cs -> forall u v, pads keep D l u v -> rel eq (set_data_loop (filter keep l) u) (set_data_loop l v).
Proof.
  induction l as [|c l IH]; intros Hi u v P; inversion P as [|c' cs' x u' v' Hk Hl P'|c' cs' u' v' Hk P']; subst; cbn [filter].
  - apply rel_ret. reflexivity.
  - rewrite Hk. cbn [set_data_loop]. intros h1 h2 H. cbv zeta. rewrite !prim_data_dim, <- Hl, !firstn_app, !Nat.sub_diag, !firstn_all, !firstn_O, !app_nil_r.
    rewrite !skipn_app, !Nat.sub_diag, !skipn_all, !skipn_O. cbn [app].
    refine (rel_bind _ _ _ _ _ _ (pset_T c x (Hi c (or_introl eq_refl)) Hk) _ h1 h2 H). intros _ _ _. apply IH; auto. intros y Hy. apply Hi. now right.
  - rewrite Hk. cbn [set_data_loop]. intros h1 h2 H. cbv zeta. 
    assert (E : prim_data h2 c = D c). { rewrite (proj2 (proj1 H) c I). apply H; auto. apply Hi. now left. }
    rewrite E, firstn_app, Nat.sub_diag, firstn_all, firstn_O, app_nil_r, skipn_app, Nat.sub_diag, skipn_all, skipn_O. cbn [app].
    unfold mbind at 1 2. rewrite <- E. rewrite prim_set_same by (rewrite E; apply finD; auto; apply Hi; now left). apply IH; auto. intros y Hy. apply Hi. now right.
Qed.
Lemma set_T u v : pads keep D cs u v -> rel eq (set_data s u) (set_data s' v).
Proof.
  intros P h1 h2 H. unfold set_data. pose proof (dofs_T h1 h2 u v P) as Hd.
  destruct (Nat.eqb_spec (length u) (get_n_dofs h1 s)) as [E|E], (Nat.eqb_spec (length v) (get_n_dofs h2 s')) as [E'|E']; try tauto.
  - unfold mbind, massert. cbn [mret]. destruct W as (_ & Es & _). rewrite Es. fold cs keep. apply setl_T; auto. apply incl_refl.
  - unfold mbind, massert. cbn [mpanic fst snd outrel]. now split.
Qed.
Lemma loss_T h1 h2 : T h1 h2 -> get_loss h2 s' = get_loss h1 s.
Proof. intros (E & _). rewrite (sd_get_loss _ _ s' E). unfold get_loss. now rewrite (proj1 W). Qed.
Lemma data_T h1 h2 : T h1 h2 -> pads keep D cs (get_data h1 s) (get_data h2 s').
Proof.
  intros (E & _ & X). rewrite (sd_get_data _ _ s' E). unfold get_data. rewrite (proj1 (proj2 W)). fold cs keep.
  apply pads_flat; auto. apply prim_data_dim.
Qed.
Lemma neg_T u v : pads keep Zb cs u v -> pads keep NZ cs (vneg u) (vneg v).
Proof. intros P. apply (pads_ext _ (fun c => map fneg (Zb c))); [|now apply pads_map]. intros c _ _. unfold NZ, Zb. now rewrite map_repeat. Qed.
Lemma neg_fin u : all_finite u = true -> all_finite (vneg u) = true.
Proof. unfold all_finite, vneg. induction u as [|x u IH]; [reflexivity|]. cbn. rewrite !andb_true_iff. intros [H1 H2]. auto. Qed.
Lemma add_T a u v x y : okA a -> pads keep NZ cs u v -> pads keep D cs x y -> pads keep D cs (vadd x (vscale a u)) (vadd y (vscale a v)).
Proof.
  intros Ha P1 P2. apply (pads_ext _ (fun c => map2 fadd (D c) (map (fmul a) (NZ c)))).
  - intros c Hc Hk. unfold NZ. rewrite map_repeat. assert (L : length (D c) = dim c) by apply prim_data_dim. rewrite <- L.
    assert (X : forall d, In d (D c) -> d +f a *f fneg f0 = d) by (intros; now apply (step1 a c)).
    clear - X. induction (D c) as [|d l IH]; [reflexivity|]. cbn [length repeat map2]. rewrite <- IH by (intros; apply X; now right). f_equal. symmetry. apply X. now left.
  - apply pads_map2; [intros c _ _; unfold NZ; rewrite map_length, repeat_length; apply prim_data_dim | exact P2 |].
    apply (pads_ext _ (fun c => map (fmul a) (NZ c))); [reflexivity|now apply pads_map].
Qed.
Lemma axpy_T a u v x y : okA a -> pads keep NZ cs u v -> pads keep D cs x y -> pads keep D cs (vaxpy a u f1 x) (vaxpy a v f1 y).
Proof.
  intros Ha P1 P2. apply (pads_ext _ (fun c => map2 (fun xi yi => a *f xi +f f1 *f yi) (NZ c) (D c))).
  - intros c Hc Hk. unfold NZ. assert (L : length (D c) = dim c) by apply prim_data_dim. rewrite <- L.
    assert (X : forall d, In d (D c) -> a *f fneg f0 +f f1 *f d = d) by (intros; now apply (step2 a c)).
    clear - X. induction (D c) as [|d l IH]; [reflexivity|]. cbn [length repeat map2]. rewrite <- IH by (intros; apply X; now right). f_equal. symmetry. apply X. now left.
  - apply pads_map2; auto. intros c _ _. unfold NZ. rewrite repeat_length. symmetry. apply prim_data_dim.
Qed.
Definition lsr (r r' : ls_res F) : Prop := r = r' /\ forall a, r = LOk a -> okA a.
Lemma lsl_T x y dir dir' loss m curv : pads keep D cs x y -> pads keep NZ cs dir dir' -> all_finite dir = true -> forall n alpha, okN n alpha ->
  rel lsr (ls_loop s x dir loss m curv n alpha) (ls_loop s' y dir' loss m curv n alpha).
Proof.
  intros P1 P2 Fd. induction n as [|n IH]; intros alpha Ha; cbn [ls_loop]; [apply rel_ret; split; [reflexivity|discriminate]|].
  apply (rel_bind eq); [apply set_T; apply add_T; auto; now exists n|]. intros _ _ _ h1 h2 H. rewrite (loss_T h1 h2 H). cbv zeta. destruct (fle _ _); [|now apply IH; auto].
  refine (rel_bind _ _ _ _ _ _ grad_T _ h1 h2 H). intros g g' [Pg Fg]. rewrite (dot1 g g' dir dir') by assumption. destruct (fge _ _).
  - apply rel_ret. split; [reflexivity|]. intros a E. injection E as <-. now exists n.
  - apply IH; auto.
Qed.
Lemma ls_T dir dir' g g' : pads keep NZ cs dir dir' -> all_finite dir = true -> pads keep Zb cs g g' -> all_finite g = true ->
  rel lsr (line_search_wolfe s dir g) (line_search_wolfe s' dir' g').
Proof.
  intros P1 F1 P2 F2 h1 h2 H. unfold line_search_wolfe. rewrite (loss_T h1 h2 H), (dot1 g g' dir dir') by assumption. cbv zeta.
  destruct (fge _ _); [split; [exact H|split; [reflexivity|discriminate]]|].
  apply lsl_T; auto. now apply data_T.
Qed.
Lemma gdl_T P n : forall i g g' l, pads keep Zb cs g g' -> all_finite g = true ->
  rel eq (gd_loop s P n i g (vnorm g) l) (gd_loop s' P n i g' (vnorm g') l).
Proof.
  induction n as [|n IH]; intros i g g' l Pg Fg; cbn [gd_loop]; [apply rel_ret; reflexivity|].
  assert (En : vnorm g' = vnorm g) by (unfold vnorm; now rewrite (dot2 g g')). rewrite En.
  destruct (flt _ _); [apply rel_ret; reflexivity|]. destruct (flt _ _); [apply rel_ret; reflexivity|].
  intros h1 h2 H. cbv zeta. pose proof (neg_T _ _ Pg) as Pn. pose proof (neg_fin g Fg) as Fn. pose proof (data_T h1 h2 H) as Pd.
  refine (rel_bind _ _ _ _ _ _ (ls_T _ _ _ _ Pn Fn Pg Fg) _ h1 h2 H). intros r r' [<- Ha]. destruct r as [alpha|e]; [|apply rel_ret; reflexivity].
  apply (rel_bind eq); [apply set_T; apply axpy_T; auto|]. intros _ _ _ k1 k2 Hk. rewrite (loss_T k1 k2 Hk). cbv zeta.
  refine (rel_bind _ _ _ _ _ _ grad_T _ k1 k2 Hk). intros g1 g1' [P1 F1]. now apply IH.
Qed.
Lemma gd_T P : rel eq (gd_run s P) (gd_run s' P).
Proof.
  unfold gd_run. apply (rel_bind (fun g g' => pads keep Zb cs g g' /\ all_finite g = true)); [apply grad_T|].
  intros g g' [Pg Fg] h1 h2 H. rewrite (loss_T h1 h2 H). now apply gdl_T.
Qed.
Lemma T0 : T h0 h0. Proof. split; [apply sd_pre|]. split; [apply struct_pre|auto]. Qed.
Lemma spare_gd P : same_course (gd_run s P h0) (gd_run s' P h0).
Proof.
  destruct (gd_T P h0 h0 T0) as [(E & _) O]. split.
  - destruct (snd (gd_run s P h0)), (snd (gd_run s' P h0)); cbn in O; try contradiction; congruence.
  - intros c. apply (proj2 E c I).
Qed.
(** ** BFGS, for any relation between the two matrices that the update keeps *)
Section Q.
Variable HR : mat F -> mat F -> Prop.
Hypothesis HR0 : forall u v, pads keep D cs u v -> HR (mident (length u)) (mident (length v)).
Hypothesis HRn : forall g g', pads keep Zb cs g g' -> all_finite g = true -> all_finite g' = true /\ vnorm_inf g' = vnorm_inf g.
Hypothesis HRd : forall m m' g g', HR m m' -> pads keep Zb cs g g' -> all_finite g = true ->
  pads keep NZ cs (mvec (mneg m) g) (mvec (mneg m') g') /\ all_finite (mvec (mneg m) g) = true /\ all_finite (mvec (mneg m') g') = true.
Hypothesis HRu : forall m m' a p p' g g' q q', HR m m' -> okA a -> pads keep NZ cs p p' -> all_finite p = true ->
  pads keep Zb cs g g' -> all_finite g = true -> pads keep Zb cs q q' -> all_finite q = true ->
  HR (bfgs_update m (vscale a p) (vsub q g) (bfgs_sdoty (vscale a p) (vsub q g)))
     (bfgs_update m' (vscale a p') (vsub q' g') (bfgs_sdoty (vscale a p') (vsub q' g'))).
Lemma bfgsl_T P fuel : forall i x y m m' b, pads keep D cs x y -> HR m m' ->
  rel eq (bfgs_loop s P fuel i x m b) (bfgs_loop s' P fuel i y m' b).
Proof.
  induction fuel as [|n IH]; intros i x y m m' b Px Hm; cbn [bfgs_loop]; [apply rel_ret; reflexivity|].
  destruct (negb _); [apply rel_ret; reflexivity|]. intros h1 h2 H. rewrite (loss_T h1 h2 H).
  destruct (flt _ _); [split; [exact H|reflexivity]|].
  refine (rel_bind _ _ _ _ _ _ grad_T _ h1 h2 H). intros g g' [Pg Fg]. destruct (HRn g g' Pg Fg) as [Fg' En]. rewrite Fg, Fg', En. cbn [negb].
  destruct (flt _ _); [apply rel_ret; reflexivity|]. cbv zeta.
  destruct (HRd m m' g g' Hm Pg Fg) as (Pp & Fp & Fp'). rewrite Fp, Fp'. cbn [negb].
  apply (rel_bind lsr); [now apply ls_T|]. intros r r' [<- Ha]. destruct r as [alpha|[]].
  - apply (rel_bind eq); [apply set_T; apply add_T; auto|]. intros _ _ _.
    apply (rel_bind _ _ _ _ _ _ grad_T). intros q q' [Pq Fq]. apply IH; [apply add_T; auto | apply HRu; auto].
  - apply rel_ret. reflexivity.
  - destruct b; [apply rel_ret; reflexivity|]. apply IH; auto.
Qed.
Lemma bfgs_T P : rel eq (bfgs_run s P) (bfgs_run s' P).
Proof. intros h1 h2 H. unfold bfgs_run. cbv zeta. apply bfgsl_T; auto; [now apply data_T | apply HR0; now apply data_T]. Qed.
Lemma spare_bfgs P : same_course (bfgs_run s P h0) (bfgs_run s' P h0).
Proof.
  destruct (bfgs_T P h0 h0 T0) as [(E & _) O]. split.
  - destruct (snd (bfgs_run s P h0)), (snd (bfgs_run s' P h0)); cbn in O; try contradiction; congruence.
  - intros c. apply (proj2 E c I).
Qed.
End Q.
End S.
