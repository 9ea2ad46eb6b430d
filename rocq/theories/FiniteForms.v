(** * Which calls keep the data finite (proofs for C49) *)
From Coq Require Import List ZArith NArith Arith Bool Lia Sorted.
From Verif Require Import Arith Vec Prim Cons Sketch Solve Api Spec SerdeSpec FiniteSpec HeapLemmas SolveLemmas BookLemmas WfLemmas DataLemmas SpecLemmas StepLemmas PureLemmas.
Import ListNotations.

Section FF.
Context {F : Type} {A : Arith F}.
Lemma fin_all v : all_finite v = true <-> Forall fin v.
Proof. unfold all_finite. rewrite forallb_forall, Forall_forall. reflexivity. Qed.
Lemma new_ok_params (c : con F) : con_new_ok c = true -> Forall fin (con_params c).
Proof.
  destruct c; cbn [con_new_ok con_params]; intros H; repeat constructor; auto; apply andb_true_iff in H; apply H.
Qed.

(** computations that only write finite data *)
Definition keepsf (h h' : heap F) : Prop := struct_eq h h' /\ fin_kept h h'.
Lemma keepsf_pre : preorder keepsf.
Proof. apply and_pre; [apply struct_pre | apply fin_kept_pre]. Qed.
Lemma keepsf_all h h' : keepsf h h' -> all_data_finite h -> all_data_finite h'.
Proof.
  intros [S K] [D1 D2]. split.
  - intros c Hc. apply fin_all. apply K. apply fin_all. apply D1. destruct S as (S1 & S2 & S3 & S4 & S5 & _). destruct c; simpl in *; congruence || (rewrite ?S1, ?S3, ?S4, ?S5 in Hc; auto).
  - intros k Hk. rewrite (struct_getK _ _ _ S). apply D2. destruct S as (_ & S2 & _). congruence.
Qed.
Lemma keepsf_sd {T} (m : M F T) : mpres sdeq m -> mpres keepsf m.
Proof. intros H h. split; [apply H|]. now apply fin_kept_sd. Qed.
Lemma prim_set_keepsf c v : mpres keepsf (prim_set_data c v).
Proof. intros h. split; [apply set_struct | apply prim_set_fin]. Qed.
Lemma set_data_keepsf s v : mpres keepsf (set_data s v).
Proof. intros h. split; [apply (set_data_frame' s v h) | apply set_data_fin]. Qed.
Lemma solve_keepsf pinv sol s : mpres keepsf (solve pinv sol s).
Proof.
  apply solve_pres; [apply keepsf_pre | apply set_data_keepsf | |]; apply keepsf_sd; [apply get_gradient_sd | apply get_jacobian_sd].
Qed.
Lemma check_coords_keepsf c orig eps l k is : mpres keepsf (check_coords c orig eps l k is).
Proof.
  induction is as [|i is IH]; cbn [check_coords]; [apply mpres_ret, keepsf_pre|].
  apply mpres_bind; [apply keepsf_pre | apply prim_set_keepsf |]. intros _ h.
  refine (mpres_bind _ keepsf_pre _ _ (prim_set_keepsf _ _) _ h). intros _.
  apply mpres_bind; [apply keepsf_pre | apply IH |]. intros r; apply mpres_ret, keepsf_pre.
Qed.
Lemma check_gradients_keepsf s eps k ce : mpres keepsf (check_gradients s eps k ce).
Proof.
  intros h. refine (mpres_bind _ keepsf_pre _ _ (keepsf_sd _ (get_gradient_sd s)) _ h). intros _ h'.
  refine (mpres_for _ keepsf_pre _ _ _ h'). intros c Hc h1.
  refine (mpres_bind _ keepsf_pre _ _ (mpres_assert _ keepsf_pre _) _ h1). intros _.
  apply mpres_bind; [apply keepsf_pre | apply check_coords_keepsf |]. intros r. apply mpres_assert, keepsf_pre.
Qed.
Lemma set_x_keepsf l x : mpres keepsf (Point2_set_x l x).
Proof.
  intros h. unfold Point2_set_x, mbind, massert. destruct (ffin x) eqn:E; [|apply keepsf_pre]. cbn [mret]. split; [apply struct_setP|].
  intros c Hc. destruct c; simpl in *; auto. rewrite getP_setP. destruct (Nat.eqb l l0 && _) eqn:B; [|exact Hc]. simpl.
  apply andb_true_iff in B as [B _]. apply Nat.eqb_eq in B. subst l0. rewrite E. apply andb_true_iff in Hc. apply Hc.
Qed.
Lemma set_y_keepsf l x : mpres keepsf (Point2_set_y l x).
Proof.
  intros h. unfold Point2_set_y, mbind, massert. destruct (ffin x) eqn:E; [|apply keepsf_pre]. cbn [mret]. split; [apply struct_setP|].
  intros c Hc. destruct c; simpl in *; auto. rewrite getP_setP. destruct (Nat.eqb l l0 && _) eqn:B; [|exact Hc]. simpl.
  apply andb_true_iff in B as [B _]. apply Nat.eqb_eq in B. subst l0. rewrite E. apply andb_true_iff in Hc. rewrite (proj1 Hc). reflexivity.
Qed.

Lemma nth_snoc {T} (l : list T) x d i : i < length (l ++ [x]) -> nth i (l ++ [x]) d = x \/ (i < length l /\ nth i (l ++ [x]) d = nth i l d).
Proof.
  rewrite app_length. simpl. intros H. destruct (Nat.lt_ge_cases i (length l)) as [K|K].
  - right. split; auto. now apply app_nth1.
  - left. rewrite app_nth2 by lia. replace (i - length l) with 0 by lia. reflexivity.
Qed.
Lemma allocP_fin h p : all_data_finite h -> fin (p_x p) -> fin (p_y p) -> all_data_finite (fst (allocP h p)).
Proof.
  intros [D1 D2] H1 H2. split; [|exact D2]. intros [l|l|l|l] Hc; try (apply (D1 (PLine l) Hc) || apply (D1 (PArc l) Hc) || apply (D1 (PCircle l) Hc)).
  cbn [allocP fst cell_ok h_pts prim_data] in *. unfold getP. cbn [h_pts]. destruct (nth_snoc _ _ pt0 _ Hc) as [->|[K ->]]; [repeat constructor; auto|]. apply (D1 (PPoint l) K).
Qed.
Lemma allocL_fin h p : all_data_finite h -> all_data_finite (fst (allocL h p)).
Proof. intros [D1 D2]. split; [|exact D2]. intros [l|l|l|l] Hc; [apply (D1 (PPoint l) Hc) | constructor | apply (D1 (PArc l) Hc) | apply (D1 (PCircle l) Hc)]. Qed.
Lemma allocA_fin h a : all_data_finite h -> fin (a_radius a) -> fin (a_sa a) -> fin (a_ea a) -> all_data_finite (fst (allocA h a)).
Proof.
  intros [D1 D2] H1 H2 H3. split; [|exact D2]. intros [l|l|l|l] Hc; [apply (D1 (PPoint l) Hc) | constructor | | apply (D1 (PCircle l) Hc)].
  cbn [allocA fst cell_ok h_arcs prim_data] in *. unfold getA. cbn [h_arcs]. destruct (nth_snoc _ _ arc0 _ Hc) as [->|[K ->]]; [repeat constructor; auto|]. apply (D1 (PArc l) K).
Qed.
Lemma allocC_fin h a : all_data_finite h -> fin (c_radius a) -> all_data_finite (fst (allocC h a)).
Proof.
  intros [D1 D2] H1. split; [|exact D2]. intros [l|l|l|l] Hc; [apply (D1 (PPoint l) Hc) | constructor | apply (D1 (PArc l) Hc) |].
  cbn [allocC fst cell_ok h_circs prim_data] in *. unfold getC. cbn [h_circs]. destruct (nth_snoc _ _ circ0 _ Hc) as [->|[K ->]]; [repeat constructor; auto|]. apply (D1 (PCircle l) K).
Qed.
Lemma allocK_fin h c : all_data_finite h -> Forall fin (con_params c) -> all_data_finite (fst (allocK h c)).
Proof.
  intros [D1 D2] H. split; [intros [l|l|l|l] Hc; [apply (D1 (PPoint l) Hc) | constructor | apply (D1 (PArc l) Hc) | apply (D1 (PCircle l) Hc)]|].
  intros k Hk. cbn [allocK fst h_cons] in *. unfold getK. cbn [h_cons]. destruct (nth_snoc _ _ con0 _ Hk) as [->|[K ->]]; [auto|]. apply (D2 k K).
Qed.
Lemma setP_fin h l p : all_data_finite h -> fin (p_x p) -> fin (p_y p) -> all_data_finite (setP h l p).
Proof.
  intros [D1 D2] H1 H2. split; [|exact D2]. intros c Hc. assert (Hc' : cell_ok h c) by (destruct c; simpl in *; rewrite ?lset_length in Hc; exact Hc).
  destruct c; try exact (D1 _ Hc'). cbn [prim_data]. rewrite getP_setP. destruct (_ && _); [repeat constructor; auto | exact (D1 _ Hc')].
Qed.
Lemma setA_fin h l p : all_data_finite h -> fin (a_radius p) -> fin (a_sa p) -> fin (a_ea p) -> all_data_finite (setA h l p).
Proof.
  intros [D1 D2] H1 H2 H3. split; [|exact D2]. intros c Hc. assert (Hc' : cell_ok h c) by (destruct c; simpl in *; rewrite ?lset_length in Hc; exact Hc).
  destruct c; try exact (D1 _ Hc'). cbn [prim_data]. rewrite getA_setA. destruct (_ && _); [repeat constructor; auto | exact (D1 _ Hc')].
Qed.
Lemma setC_fin h l p : all_data_finite h -> fin (c_radius p) -> all_data_finite (setC h l p).
Proof.
  intros [D1 D2] H1. split; [|exact D2]. intros c Hc. assert (Hc' : cell_ok h c) by (destruct c; simpl in *; rewrite ?lset_length in Hc; exact Hc).
  destruct c; try exact (D1 _ Hc'). cbn [prim_data]. rewrite getC_setC. destruct (_ && _); [repeat constructor; auto | exact (D1 _ Hc')].
Qed.
Lemma setL_fin h l p : all_data_finite h -> all_data_finite (setL h l p).
Proof.
  intros [D1 D2]. split; [|exact D2]. intros c Hc. assert (Hc' : cell_ok h c) by (destruct c; simpl in *; rewrite ?lset_length in Hc; exact Hc).
  destruct c; exact (D1 _ Hc').
Qed.
Lemma setK_fin h l c : all_data_finite h -> Forall fin (con_params c) -> all_data_finite (setK h l c).
Proof.
  intros [D1 D2] H. split; [exact D1|]. intros k Hk. rewrite getK_setK. destruct (_ && _); auto. apply D2. simpl in Hk. now rewrite lset_length in Hk.
Qed.
(** the data of arcs and circles of an arbitrary (live) location *)
Lemma arc_fin h l : all_data_finite h -> cell_ok h (PArc l) -> fin (a_radius (getA h l)) /\ fin (a_sa (getA h l)) /\ fin (a_ea (getA h l)).
Proof. intros [D1 _] H. specialize (D1 _ H). cbn [prim_data] in D1. inversion D1 as [|? ? X Y]; subst. inversion Y as [|? ? X' Y']; subst. inversion Y'; subst. auto. Qed.
Lemma circ_fin h l : all_data_finite h -> cell_ok h (PCircle l) -> fin (c_radius (getC h l)).
Proof. intros [D1 _] H. specialize (D1 _ H). cbn [prim_data] in D1. now inversion D1. Qed.
Lemma with_params_fin (c : con F) x y : Forall fin (con_params c) -> fin x -> fin y -> Forall fin (con_params (con_with_params c x y)).
Proof. destruct c; cbn [con_with_params con_params]; intros; repeat constructor; auto. Qed.
Lemma on_heap_fin {T} (m : M F T) f (st st' : state F) r : mpres keepsf m -> on_heap m f st = (st', r) -> all_data_finite (fst st) -> all_data_finite (fst st').
Proof.
  intros K. unfold on_heap. specialize (K (fst st)). destruct (m (fst st)) as [h' [x|]]; intros E H; injection E as <- <-; exact (keepsf_all _ _ K H).
Qed.
Ltac two H := match type of H with Forall _ [_; _] => let X := fresh in let Y := fresh in inversion H as [|? ? ?X Y]; subst; inversion Y; subst | _ => idtac end.
Lemma step_fin pinv (st st' : state F) o r : op_ok (fst st) o -> Forall fin (unchecked o) -> step pinv st o = (st', r) ->
  all_data_finite (fst st) -> all_data_finite (fst st').
Proof.
  destruct st as [h s]. intros O U E D. cbn [fst] in *.
  destruct o; cbn [step unchecked] in *;
    try (apply (on_heap_fin _ _ _ _ _) in E; [exact E | | exact D];
         first [apply set_data_keepsf | apply solve_keepsf | apply check_gradients_keepsf | apply set_x_keepsf | apply set_y_keepsf | apply prim_set_keepsf
               | apply keepsf_sd; first [apply get_gradient_sd | apply get_jacobian_sd | apply update_sd | apply padd_sd] ]).
  - injection E as <- <-. repeat match goal with H : Forall _ (_ :: _) |- _ => inversion H; clear H; subst end. now apply (allocP_fin h (Point2_new x y)).
  - injection E as <- <-. now apply (allocL_fin h).
  - injection E as <- <-. repeat match goal with H : Forall _ (_ :: _) |- _ => inversion H; clear H; subst end. now apply (allocA_fin h (Arc_new c r0 cw sa ea)).
  - injection E as <- <-. repeat match goal with H : Forall _ (_ :: _) |- _ => inversion H; clear H; subst end. now apply (allocC_fin h (Circle_new c r0)).
  - destruct (con_new_ok c) eqn:K; injection E as <- <-; auto. apply (allocK_fin h c); auto. now apply new_ok_params.
  - destruct (add_primitive h s c). injection E as <- <-. exact D.
  - unfold add_point2 in E. destruct (allocP h (Point2_new x y)) as [h1 l] eqn:P. destruct (add_primitive h1 s (PPoint l)) as [s1 [i|e]]; injection E as <- <-; cbn [fst];
    rewrite <- (f_equal fst P : fst (allocP h _) = h1); repeat match goal with H : Forall _ (_ :: _) |- _ => inversion H; clear H; subst end; now apply allocP_fin.
  - unfold add_line in E. destruct (allocL h (mkLine s0 e)) as [h1 l] eqn:P. destruct (add_primitive h1 s (PLine l)) as [s1 [i|er]]; injection E as <- <-; cbn [fst];
    rewrite <- (f_equal fst P : fst (allocL h _) = h1); now apply allocL_fin.
  - unfold add_arc in E. destruct (allocA h (Arc_new c r0 cw sa ea)) as [h1 l] eqn:P. destruct (add_primitive h1 s (PArc l)) as [s1 [i|er]]; injection E as <- <-; cbn [fst];
    rewrite <- (f_equal fst P : fst (allocA h _) = h1); repeat match goal with H : Forall _ (_ :: _) |- _ => inversion H; clear H; subst end; now apply allocA_fin.
  - destruct (add_constraint h s k). injection E as <- <-. exact D.
  - unfold constrain in E. destruct (con_new_ok c) eqn:K; cbn [negb] in E; [|injection E as <- <-; exact D].
    destruct (allocK h c) as [h1 l] eqn:P. destruct (add_constraint h1 s l) as [s1 [i|er]]; injection E as <- <-; cbn [fst];
    rewrite <- (f_equal fst P : fst (allocK h _) = h1); apply allocK_fin; auto; now apply new_ok_params.
  - destruct (delete_primitive s id). injection E as <- <-. exact D.
  - destruct (delete_constraint s k). injection E as <- <-. exact D.
  - injection E as <- <-. repeat match goal with H : Forall _ (_ :: _) |- _ => inversion H; clear H; subst end. now apply setP_fin.
  - injection E as <- <-. now apply setL_fin.
  - injection E as <- <-. now apply setL_fin.
  - injection E as <- <-. destruct (arc_fin h l D) as (X & Y & Z); [apply O|]. now apply setA_fin.
  - injection E as <- <-. repeat match goal with H : Forall _ (_ :: _) |- _ => inversion H; clear H; subst end. now apply setA_fin.
  - injection E as <- <-. pose proof (circ_fin h l D) as X. apply setC_fin; auto. apply X. apply O.
  - injection E as <- <-. repeat match goal with H : Forall _ (_ :: _) |- _ => inversion H; clear H; subst end. now apply setC_fin.
  - injection E as <- <-. repeat match goal with H : Forall _ (_ :: _) |- _ => inversion H; clear H; subst end. apply setK_fin; auto. apply with_params_fin; auto. apply D. exact O.
  - destruct (same_kind (getK h k) c); injection E as <- <-; auto. now apply setK_fin.
  - injection E as <- <-. apply (keepsf_all h); auto. split; [apply zero_struct|]. intros c' Hc'. cbn [fst]. change (all_finite (prim_data (prim_zero h c) c') = true). rewrite zero_data. exact Hc'.
Qed.
Lemma C49_lemma pinv (os : list (op F)) rs st : run pinv init os rs st -> Forall (fun o => Forall fin (unchecked o)) os -> all_data_finite (fst st).
Proof.
  intros R U. assert (G : all_data_finite (fst (init : state F))) by (split; [intros [l|l|l|l] H; simpl in H; lia | intros k H; simpl in H; lia]).
  revert G. induction R as [|st o st1 r os rs st2 O E R IH]; auto. inversion U; subst. intros G. apply IH; auto. eapply step_fin; eauto.
Qed.
End FF.
