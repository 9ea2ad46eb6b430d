(** * Effects of the solvers: whatever set_data, get_gradient and get_jacobian preserve *)
From Coq Require Import List ZArith NArith Arith Bool Lia.
From Verif Require Import Arith Vec Prim Cons Sketch Solve HeapLemmas.
Import ListNotations.

Section L.
Context {F : Type} {A : Arith F}.
Variable R : heap F -> heap F -> Prop.
Hypothesis HR : preorder R.
Variable s : sketch.
Hypothesis Hset : forall v, mpres R (set_data s v).
Hypothesis Hgrad : mpres R (get_gradient s).
Hypothesis Hjac : mpres R (get_jacobian s).

Lemma ls_loop_pres x0 dir loss m curv n : forall alpha, mpres R (ls_loop s x0 dir loss m curv n alpha).
Proof.
  induction n as [|n IH]; intros alpha; simpl; [now apply mpres_ret|].
  apply mpres_bind; auto. intros _ h.
  destruct (fle _ _); [|apply IH].
  refine (mpres_bind _ HR _ _ Hgrad _ h). intros ng.
  destruct (fge _ _); [now apply mpres_ret | apply IH].
Qed.
Lemma line_search_pres dir g : mpres R (line_search_wolfe s dir g).
Proof.
  intros h; unfold line_search_wolfe. destruct (fge _ _); [apply HR | apply ls_loop_pres].
Qed.
Lemma gd_loop_pres P n : forall it g gn l, mpres R (gd_loop s P n it g gn l).
Proof.
  induction n as [|n IH]; intros it g gn l; simpl; [now apply mpres_ret|].
  destruct (flt _ _); [now apply mpres_ret|]. destruct (flt _ _); [now apply mpres_ret|].
  intros h. refine (mpres_bind _ HR _ _ (line_search_pres _ _) _ h).
  intros [alpha|e]; [|now apply mpres_ret].
  apply mpres_bind; auto. intros _ h'.
  refine (mpres_bind _ HR _ _ Hgrad _ h'). intros g'; apply IH.
Qed.
Lemma gd_run_pres P : mpres R (gd_run s P).
Proof. apply mpres_bind; auto. intros g h. apply gd_loop_pres. Qed.
Lemma bfgs_loop_pres P n : forall it d hm b, mpres R (bfgs_loop s P n it d hm b).
Proof.
  induction n as [|n IH]; intros it d hm b; simpl; [now apply mpres_ret|].
  destruct (negb _); [now apply mpres_ret|]. intros h.
  destruct (flt _ _); [apply HR|].
  refine (mpres_bind _ HR _ _ Hgrad _ h). intros g.
  destruct (negb _); [now apply mpres_ret|]. destruct (flt _ _); [now apply mpres_ret|].
  destruct (negb _); [now apply mpres_ret|].
  apply mpres_bind; [auto | apply line_search_pres |].
  intros [alpha|[|]]; [| now apply mpres_ret |].
  - apply mpres_bind; auto. intros _. apply mpres_bind; auto.
  - destruct b; [now apply mpres_ret | apply IH].
Qed.
Lemma bfgs_run_pres P : mpres R (bfgs_run s P).
Proof. intros h; apply bfgs_loop_pres. Qed.
Lemma nls_loop_pres pinv normal ml eps st n : forall it l, mpres R (nls_loop pinv s normal ml eps st n it l).
Proof.
  induction n as [|n IH]; intros it l; simpl; [now apply mpres_ret|].
  destruct (negb _); [now apply mpres_ret|]. intros h.
  refine (mpres_bind _ HR _ _ Hjac _ h). intros jac.
  destruct (nls_step _ _ _ _ _ _ _); [| now apply mpres_ret | now apply mpres_panic].
  apply mpres_bind; auto.
Qed.
Lemma solve_pres pinv sol : mpres R (solve pinv sol s).
Proof.
  destruct sol; simpl; (apply mpres_bind; [auto | | intros; now apply mpres_ret]);
  [apply gd_run_pres | apply bfgs_run_pres | apply nls_loop_pres | apply nls_loop_pres].
Qed.
End L.

Section Frame.
Context {F : Type} {A : Arith F}.

(** structure everywhere, data of unregistered cells *)
Definition frame (s : sketch) (h h' : heap F) : Prop := struct_eq h h' /\ data_eq (unreg s) h h'.
Lemma frame_pre s : preorder (frame s).
Proof. apply and_pre; [apply struct_pre | apply data_pre]. Qed.
Lemma sd_is_frame {T} s (m : M F T) : mpres sdeq m -> mpres (frame s) m.
Proof. intros H h; destruct (H h) as [Hs Hd]; split; [auto | intros c _; now apply Hd]. Qed.
Lemma set_data_frame' s d : mpres (frame s) (set_data s d).
Proof. intros h; destruct (set_data_frame s d h) as [[H1 H2] H3]; split; auto. Qed.
Lemma solve_frame pinv sol s : mpres (frame s) (solve pinv sol s).
Proof.
  apply solve_pres; [apply frame_pre | apply set_data_frame' | |];
  apply sd_is_frame; [apply get_gradient_sd | apply get_jacobian_sd].
Qed.

Lemma check_coords_frame s c : In c (cells s) ->
  forall orig eps l k is, mpres (frame s) (check_coords c orig eps l k is).
Proof.
  intros Hin orig eps l k is. 
  assert (Hs : forall v, mpres (frame s) (prim_set_data c v)).
  { intros v h; split; [apply set_struct|].
    eapply data_eq_sub; [|apply set_data_other]. intros c' Hc' ->; now apply Hc'. }
  induction is as [|i is IH]; simpl; [apply mpres_ret, frame_pre|].
  apply mpres_bind; [apply frame_pre | apply Hs |]. intros _ h.
  refine (mpres_bind _ (frame_pre s) _ _ (Hs _) _ h). intros _.
  apply mpres_bind; [apply frame_pre | apply IH |]. intros r; apply mpres_ret, frame_pre.
Qed.
Lemma check_gradients_frame s eps k ce : mpres (frame s) (check_gradients s eps k ce).
Proof.
  intros h. refine (mpres_bind _ (frame_pre s) _ _ (sd_is_frame s _ (get_gradient_sd s)) _ h).
  intros _ h'. refine (mpres_for _ (frame_pre s) _ _ _ h'). intros c Hc h1.
  refine (mpres_bind _ (frame_pre s) _ _ (mpres_assert _ (frame_pre s) _) _ h1). intros _.
  apply mpres_bind; [apply frame_pre | now apply check_coords_frame |].
  intros; apply mpres_assert, frame_pre.
Qed.
End Frame.
