(** * Basic lemmas about cells, the panic monad and effects (proofs only) *)
From Coq Require Import List ZArith NArith Arith Bool Lia.
From Verif Require Import Arith Vec Prim Cons Sketch.
Import ListNotations.

Lemma lset_length {T} (l : list T) i x : length (lset l i x) = length l.
Proof. revert i; induction l as [|y l IH]; intros [|i]; simpl; auto. Qed.

Lemma nth_lset {T} (l : list T) i j x d :
  nth j (lset l i x) d = if Nat.eqb i j && Nat.ltb i (length l) then x else nth j l d.
Proof.
  revert i j; induction l as [|y l IH]; intros [|i] [|j]; simpl; auto.
  - destruct (Nat.eqb i j); reflexivity.
  - rewrite IH. reflexivity.
Qed.

Lemma nth_lset_neq {T} (l : list T) i j x d : i <> j -> nth j (lset l i x) d = nth j l d.
Proof. intros H; rewrite nth_lset. apply Nat.eqb_neq in H; now rewrite H. Qed.

Lemma nth_lset_eq {T} (l : list T) i x d : i < length l -> nth i (lset l i x) d = x.
Proof. intros H; rewrite nth_lset, Nat.eqb_refl. apply Nat.ltb_lt in H; now rewrite H. Qed.

Lemma lset_oob {T} (l : list T) i x : length l <= i -> lset l i x = l.
Proof. revert i; induction l as [|y l IH]; intros [|i] H; simpl in *; auto; try lia. f_equal; apply IH; lia. Qed.

Lemma lset_same {T} (l : list T) i d : lset l i (nth i l d) = l.
Proof. revert i; induction l as [|y l IH]; intros [|i]; simpl; auto. now rewrite IH. Qed.

Lemma nth_oob {T} (l : list T) i d : length l <= i -> nth i l d = d.
Proof. intros; now apply nth_overflow. Qed.

Lemma pcell_eqb_eq a b : pcell_eqb a b = true <-> a = b.
Proof.
  destruct a, b; simpl; rewrite ?Nat.eqb_eq; split; intros H; try congruence; try discriminate.
Qed.
Lemma pcell_eqb_refl a : pcell_eqb a a = true.
Proof. now apply pcell_eqb_eq. Qed.
Lemma pcell_eqb_neq a b : pcell_eqb a b = false <-> a <> b.
Proof. rewrite <- pcell_eqb_eq. destruct (pcell_eqb a b); split; congruence. Qed.
Lemma pcell_dec (a b : pcell) : {a = b} + {a <> b}.
Proof. destruct (pcell_eqb a b) eqn:E; [left; now apply pcell_eqb_eq | right; now apply pcell_eqb_neq]. Qed.

Section L.
Context {F : Type} {A : Arith F}.

(** ** Effects: a preorder preserved by a computation *)
Definition mpres {T} (R : heap F -> heap F -> Prop) (m : M F T) : Prop :=
  forall h, R h (fst (m h)).

Record preorder (R : heap F -> heap F -> Prop) : Prop := {
  pre_refl : forall h, R h h;
  pre_trans : forall a b c, R a b -> R b c -> R a c }.

Section Pres.
Variable R : heap F -> heap F -> Prop.
Hypothesis HR : preorder R.

Lemma mpres_ret {T} (x : T) : mpres R (mret x).
Proof. intros h; apply HR. Qed.
Lemma mpres_panic {T} : mpres R (mpanic : M F T).
Proof. intros h; apply HR. Qed.
Lemma mpres_assert b : mpres R (massert b).
Proof. destruct b; [apply mpres_ret | apply mpres_panic]. Qed.
Lemma mpres_bind {T U} (m : M F T) (f : T -> M F U) :
  mpres R m -> (forall x, mpres R (f x)) -> mpres R (mbind m f).
Proof.
  intros Hm Hf h. unfold mbind. specialize (Hm h).
  destruct (m h) as [h1 [x|]]; simpl in *; auto.
  eapply HR; [exact Hm | apply Hf].
Qed.
Lemma mpres_for {T} (l : list T) (f : T -> M F unit) :
  (forall x, In x l -> mpres R (f x)) -> mpres R (mfor l f).
Proof.
  induction l as [|x l IH]; intros H; simpl; [apply mpres_ret|].
  apply mpres_bind; [apply H; now left | intros _; apply IH; intros y Hy; apply H; now right].
Qed.
Lemma mpres_fun {T} (f : heap F -> M F T) :
  (forall g, mpres R (f g)) -> mpres R (fun h => f h h).
Proof. intros H h; apply H. Qed.
End Pres.

(** ** Reading back writes *)
Lemma getP_setP h l x l' :
  getP (setP h l x) l' = if Nat.eqb l l' && Nat.ltb l (length (h_pts h)) then x else getP h l'.
Proof. unfold getP, setP; simpl; apply nth_lset. Qed.
Lemma getA_setA h l x l' :
  getA (setA h l x) l' = if Nat.eqb l l' && Nat.ltb l (length (h_arcs h)) then x else getA h l'.
Proof. unfold getA, setA; simpl; apply nth_lset. Qed.
Lemma getC_setC h l x l' :
  getC (setC h l x) l' = if Nat.eqb l l' && Nat.ltb l (length (h_circs h)) then x else getC h l'.
Proof. unfold getC, setC; simpl; apply nth_lset. Qed.
Lemma getL_setL (h : heap F) l x l' :
  getL (setL h l x) l' = if Nat.eqb l l' && Nat.ltb l (length (h_lines h)) then x else getL h l'.
Proof. unfold getL, setL; simpl; apply nth_lset. Qed.
Lemma getK_setK (h : heap F) l x l' :
  getK (setK h l x) l' = if Nat.eqb l l' && Nat.ltb l (length (h_cons h)) then x else getK h l'.
Proof. unfold getK, setK; simpl; apply nth_lset. Qed.

(** ** Structure of a heap: everything but the numbers in points, arcs and circles *)
Definition struct_eq (h h' : heap F) : Prop :=
  h_lines h' = h_lines h /\ h_cons h' = h_cons h /\
  length (h_pts h') = length (h_pts h) /\ length (h_arcs h') = length (h_arcs h) /\
  length (h_circs h') = length (h_circs h) /\
  (forall l, a_center (getA h' l) = a_center (getA h l) /\ a_cw (getA h' l) = a_cw (getA h l)) /\
  (forall l, c_center (getC h' l) = c_center (getC h l)).

Definition data_eq (P : pcell -> Prop) (h h' : heap F) : Prop :=
  forall c, P c -> prim_data h' c = prim_data h c.
Definition grad_eq (P : pcell -> Prop) (h h' : heap F) : Prop :=
  forall c, P c -> prim_grad h' c = prim_grad h c.
Definition anyc : pcell -> Prop := fun _ => True.

Lemma struct_pre : preorder struct_eq.
Proof.
  split; [intros h; unfold struct_eq; intuition|].
  intros a b c (H1&H2&H3&H4&H5&H6&H7) (G1&G2&G3&G4&G5&G6&G7).
  unfold struct_eq; repeat split; try congruence;
    try (destruct (G6 l), (H6 l); congruence); rewrite G7; apply H7.
Qed.
Lemma data_pre P : preorder (data_eq P).
Proof. split; unfold data_eq; [auto|]. intros a b c H G x Hx; rewrite G, H; auto. Qed.
Lemma grad_pre P : preorder (grad_eq P).
Proof. split; unfold grad_eq; [auto|]. intros a b c H G x Hx; rewrite G, H; auto. Qed.
Lemma and_pre R1 R2 : preorder R1 -> preorder R2 -> preorder (fun h h' => R1 h h' /\ R2 h h').
Proof. intros H G; split; intros; split; try apply H; try apply G; destruct H0, H1; eapply pre_trans; eauto. Qed.
Lemma imp_pre (Q : heap F -> Prop) : preorder (fun h h' => Q h -> Q h').
Proof. split; auto. Qed.
Lemma mpres_and {T} R1 R2 (m : M F T) : mpres R1 m -> mpres R2 m -> mpres (fun h h' => R1 h h' /\ R2 h h') m.
Proof. intros H G h; split; auto. Qed.
Lemma mpres_and_iff {T} R1 R2 (m : M F T) : mpres (fun h h' => R1 h h' /\ R2 h h') m -> mpres R1 m /\ mpres R2 m.
Proof. intros H; split; intros h; apply H. Qed.

Lemma struct_setP h l x : struct_eq h (setP h l x).
Proof. unfold struct_eq, setP, getA, getC; simpl; rewrite lset_length; intuition. Qed.
Lemma struct_setA h l x :
  a_center x = a_center (getA h l) -> a_cw x = a_cw (getA h l) -> struct_eq h (setA h l x).
Proof.
  intros E1 E2. unfold struct_eq; simpl; rewrite lset_length; repeat split;
  rewrite getA_setA; destruct (Nat.eqb l l0) eqn:E; simpl; auto;
  destruct (Nat.ltb l _); auto; apply Nat.eqb_eq in E; subst; auto.
Qed.
Lemma struct_setC h l x : c_center x = c_center (getC h l) -> struct_eq h (setC h l x).
Proof.
  intros E1. unfold struct_eq; simpl; rewrite lset_length; do 6 (split; [auto|]).
  intros l0; rewrite getC_setC; destruct (Nat.eqb l l0) eqn:E; simpl; auto;
  destruct (Nat.ltb l _); auto; apply Nat.eqb_eq in E; subst; auto.
Qed.

Lemma struct_getL (h h' : heap F) l : struct_eq h h' -> getL h' l = getL h l.
Proof. intros (H&_); unfold getL; now rewrite H. Qed.
Lemma struct_getK (h h' : heap F) l : struct_eq h h' -> getK h' l = getK h l.
Proof. intros (_&H&_); unfold getK; now rewrite H. Qed.
Lemma struct_refs h h' c : struct_eq h h' -> prim_refs h' c = prim_refs h c.
Proof.
  intros H. destruct c; simpl; auto; rewrite ?(struct_getL _ _ _ H); auto;
  destruct H as (_&_&_&_&_&H6&H7); [destruct (H6 l) as [-> _] | rewrite H7]; auto.
Qed.

Lemma prim_data_length h c :
  length (prim_data h c) = match c with PPoint _ => 2 | PLine _ => 0 | PArc _ => 3 | PCircle _ => 1 end.
Proof. destruct c; reflexivity. Qed.
Lemma prim_grad_length h c : length (prim_grad h c) = length (prim_data h c).
Proof. destruct c; reflexivity. Qed.

(** cell-wise effect of the primitive writes *)
Ltac eqbs := repeat match goal with
  | H : Nat.eqb _ _ = true |- _ => apply Nat.eqb_eq in H; subst
  | H : Nat.eqb _ _ = false |- _ => apply Nat.eqb_neq in H
  end.

Lemma data_setP_other h l x c : c <> PPoint l -> prim_data (setP h l x) c = prim_data h c.
Proof.
  intros H; destruct c as [l'|l'|l'|l']; simpl; auto.
  rewrite getP_setP. destruct (Nat.eqb l l') eqn:E; simpl; auto; eqbs; congruence.
Qed.
Lemma grad_setP_other h l x c : c <> PPoint l -> prim_grad (setP h l x) c = prim_grad h c.
Proof.
  intros H; destruct c as [l'|l'|l'|l']; simpl; auto.
  rewrite getP_setP. destruct (Nat.eqb l l') eqn:E; simpl; auto; eqbs; congruence.
Qed.
Lemma data_setA_other h l x c : c <> PArc l -> prim_data (setA h l x) c = prim_data h c.
Proof.
  intros H; destruct c as [l'|l'|l'|l']; simpl; auto.
  rewrite getA_setA. destruct (Nat.eqb l l') eqn:E; simpl; auto; eqbs; congruence.
Qed.
Lemma grad_setA_other h l x c : c <> PArc l -> prim_grad (setA h l x) c = prim_grad h c.
Proof.
  intros H; destruct c as [l'|l'|l'|l']; simpl; auto.
  rewrite getA_setA. destruct (Nat.eqb l l') eqn:E; simpl; auto; eqbs; congruence.
Qed.
Lemma data_setC_other h l x c : c <> PCircle l -> prim_data (setC h l x) c = prim_data h c.
Proof.
  intros H; destruct c as [l'|l'|l'|l']; simpl; auto.
  rewrite getC_setC. destruct (Nat.eqb l l') eqn:E; simpl; auto; eqbs; congruence.
Qed.
Lemma grad_setC_other h l x c : c <> PCircle l -> prim_grad (setC h l x) c = prim_grad h c.
Proof.
  intros H; destruct c as [l'|l'|l'|l']; simpl; auto.
  rewrite getC_setC. destruct (Nat.eqb l l') eqn:E; simpl; auto; eqbs; congruence.
Qed.
Lemma data_setP_same h l x gx gy : 
  x = mkPoint (p_x (getP h l)) (p_y (getP h l)) gx gy ->
  forall c, prim_data (setP h l x) c = prim_data h c.
Proof.
  intros -> c; destruct c as [l'|l'|l'|l']; simpl; auto.
  rewrite getP_setP. destruct (Nat.eqb l l') eqn:E; simpl; auto.
  destruct (Nat.ltb _ _); auto; eqbs; auto.
Qed.
Lemma data_setA_same h l c0 b g1 g2 g3 :
  let a := getA h l in
  forall c, prim_data (setA h l (mkArc c0 (a_radius a) (a_sa a) (a_ea a) g1 g2 g3 b)) c = prim_data h c.
Proof.
  intros a c; destruct c as [l'|l'|l'|l']; simpl; auto.
  rewrite getA_setA. destruct (Nat.eqb l l') eqn:E; simpl; auto.
  destruct (Nat.ltb _ _); auto; eqbs; auto.
Qed.
Lemma data_setC_same h l c0 g :
  forall c, prim_data (setC h l (mkCircle c0 (c_radius (getC h l)) g)) c = prim_data h c.
Proof.
  intros c; destruct c as [l'|l'|l'|l']; simpl; auto.
  rewrite getC_setC. destruct (Nat.eqb l l') eqn:E; simpl; auto.
  destruct (Nat.ltb _ _); auto; eqbs; auto.
Qed.

(** *** zero_gradient *)
Lemma zero_struct h c : struct_eq h (prim_zero h c).
Proof.
  destruct c; simpl; [apply struct_setP | apply struct_pre | now apply struct_setA | now apply struct_setC].
Qed.
Lemma zero_data h c c' : prim_data (prim_zero h c) c' = prim_data h c'.
Proof.
  destruct c; simpl; auto; [eapply data_setP_same; reflexivity | apply data_setA_same | apply data_setC_same].
Qed.
Lemma zero_grad_other h c c' : c <> c' -> prim_grad (prim_zero h c) c' = prim_grad h c'.
Proof.
  intros H; destruct c; unfold prim_zero; auto;
  [apply grad_setP_other | apply grad_setA_other | apply grad_setC_other]; congruence.
Qed.

Lemma zero_all_struct s h : struct_eq h (zero_all s h).
Proof.
  unfold zero_all. generalize (cells s) as l. intros l; revert h.
  induction l as [|c l IH]; intros h; simpl; [apply struct_pre|].
  eapply struct_pre; [apply zero_struct | apply IH].
Qed.
Lemma zero_all_data s h c : prim_data (zero_all s h) c = prim_data h c.
Proof.
  unfold zero_all. generalize (cells s) as l. intros l; revert h.
  induction l as [|x l IH]; intros h; simpl; auto. rewrite IH; apply zero_data.
Qed.

(** *** set_data of one primitive *)
Lemma set_struct c v : mpres struct_eq (prim_set_data c v).
Proof.
  destruct c; simpl; try (apply mpres_ret, struct_pre);
  (apply mpres_bind; [apply struct_pre | apply mpres_assert, struct_pre | intros _ h; simpl]);
  [apply struct_setP | now apply struct_setA | now apply struct_setC].
Qed.
Lemma set_data_other c v : mpres (data_eq (fun c' => c' <> c)) (prim_set_data c v).
Proof.
  destruct c; simpl; try (apply mpres_ret, data_pre);
  (apply mpres_bind; [apply data_pre | apply mpres_assert, data_pre | intros _ h c' Hc'; simpl]);
  [apply data_setP_other | apply data_setA_other | apply data_setC_other]; congruence.
Qed.
Lemma set_grad c v : mpres (grad_eq anyc) (prim_set_data c v).
Proof.
  destruct c; simpl; try (apply mpres_ret, grad_pre);
  (apply mpres_bind; [apply grad_pre | apply mpres_assert, grad_pre | intros _ h c' _; simpl]);
  destruct c' as [l'|l'|l'|l']; simpl; auto; rewrite ?getP_setP, ?getA_setA, ?getC_setC;
  (destruct (Nat.eqb l l') eqn:E; simpl; auto; destruct (Nat.ltb _ _); auto; eqbs; auto).
Qed.

(** *** add_to_gradient *)
Definition sdeq (h h' : heap F) := struct_eq h h' /\ data_eq anyc h h'.
Lemma sd_pre : preorder sdeq.
Proof. apply and_pre; [apply struct_pre | apply data_pre]. Qed.

Lemma padd_sd l g : mpres sdeq (Point2_add_to_gradient l g).
Proof.
  apply mpres_bind; [apply sd_pre | apply mpres_assert, sd_pre | intros _ h; simpl; split];
  [apply struct_setP | intros c _; eapply data_setP_same; reflexivity].
Qed.
Lemma add_sd t g : mpres sdeq (add_to_gradient t g).
Proof.
  destruct t; unfold add_to_gradient; [apply padd_sd | |].
  - apply mpres_bind; [apply sd_pre | apply mpres_assert, sd_pre |]. intros _.
    apply (mpres_fun _ (fun h => mbind (Point2_add_to_gradient (l_start (getL h l)) (firstn 2 g)) (fun _ =>
           Point2_add_to_gradient (l_end (getL h l)) (firstn 2 (skipn 2 g))))).
    intros h; apply mpres_bind; [apply sd_pre | apply padd_sd | intros _; apply padd_sd].
  - apply mpres_bind; [apply sd_pre | apply mpres_assert, sd_pre |]. intros _.
    match goal with |- mpres _ (fun h => ?b) => idtac end.
    intros h. refine (mpres_bind _ sd_pre _ _ (padd_sd _ _) _ h).
    intros _ h'; simpl; split; [now apply struct_setA | intros c _; apply data_setA_same].
Qed.
Lemma cadd_sd l g : mpres sdeq (Circle_add_to_gradient l g).
Proof.
  apply mpres_bind; [apply sd_pre | apply mpres_assert, sd_pre |]. intros _.
  intros h. refine (mpres_bind _ sd_pre _ _ (padd_sd _ _) _ h).
  intros _ h'; simpl; split; [now apply struct_setC | intros c _; apply data_setC_same].
Qed.
Lemma update_sd c : mpres sdeq (update_gradient c).
Proof.
  intros h. refine (mpres_for _ sd_pre _ _ _ h). intros x _; apply add_sd.
Qed.
Lemma zero_all_sd s h : sdeq h (zero_all s h).
Proof. split; [apply zero_all_struct | intros c _; apply zero_all_data]. Qed.

Lemma get_gradient_sd s : mpres sdeq (get_gradient s).
Proof.
  intros h. unfold get_gradient.
  eapply sd_pre; [apply (zero_all_sd s)|].
  refine (mpres_bind _ sd_pre _ _ _ _ (zero_all s h)).
  - apply mpres_for; [apply sd_pre|]. intros k _ h'. apply update_sd.
  - intros _ h'. refine (mpres_bind _ sd_pre _ _ _ _ h').
    + apply mpres_assert, sd_pre.
    + intros _; apply mpres_ret, sd_pre.
Qed.
Lemma get_jacobian_sd s : mpres sdeq (get_jacobian s).
Proof.
  unfold get_jacobian. generalize (s_cons s) as ks.
  induction ks as [|k ks IH]; simpl; [apply mpres_ret, sd_pre|].
  intros h. eapply sd_pre; [apply (zero_all_sd s)|].
  refine (mpres_bind _ sd_pre _ _ _ _ (zero_all s h)).
  - intros h'; apply update_sd.
  - intros _ h'. refine (mpres_bind _ sd_pre _ _ IH _ h'). intros r; apply mpres_ret, sd_pre.
Qed.

(** *** Sketch::set_data *)
Definition unreg (s : sketch) : pcell -> Prop := fun c => ~ In c (cells s).
Definition sd_frame (s : sketch) (h h' : heap F) :=
  (struct_eq h h' /\ grad_eq anyc h h') /\ data_eq (unreg s) h h'.
Lemma sdf_pre s : preorder (sd_frame s).
Proof. apply and_pre; [apply and_pre; [apply struct_pre | apply grad_pre] | apply data_pre]. Qed.

Lemma data_eq_sub (P Q : pcell -> Prop) h h' : (forall c, P c -> Q c) -> data_eq Q h h' -> data_eq P h h'.
Proof. firstorder. Qed.

Lemma set_data_loop_frame s cs : incl cs (cells s) -> forall d, mpres (sd_frame s) (set_data_loop cs d).
Proof.
  induction cs as [|c cs IH]; intros Hi d; simpl; [apply mpres_ret, sdf_pre|].
  intros h. refine (mpres_bind _ (sdf_pre s) _ _ _ _ h).
  - apply mpres_and; [apply mpres_and; [apply set_struct | apply set_grad]|].
    intros h'. eapply data_eq_sub; [|apply set_data_other]. intros c' Hc' ->.
    apply Hc', Hi; now left.
  - intros _. apply IH. intros x Hx; apply Hi; now right.
Qed.
Lemma set_data_frame s d : mpres (sd_frame s) (set_data s d).
Proof.
  intros h. refine (mpres_bind _ (sdf_pre s) _ _ _ _ h).
  - apply mpres_assert, sdf_pre.
  - intros _; apply set_data_loop_frame, incl_refl.
Qed.

End L.
