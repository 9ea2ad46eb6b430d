(** * Two sketches whose data, losses and gradients correspond: the solvers keep the correspondence *)
From Coq Require Import List ZArith NArith Arith Bool Lia Permutation Reals Lra.
From Verif Require Import Arith Vec Prim Cons Sketch Solve Api Spec ArithR ExactSpec MotionSpec
  HeapLemmas SolveLemmas ExactLemmas GradLemmas LossLemmas RMat ExactRun NlsMat.
Import ListNotations.
Local Open Scope R_scope.

(** ** linear combinations of rows *)
Definition lincomb (n : nat) (ps : list (list R * R)) : list R :=
  fold_right (fun p acc => addL (sclL (snd p) (fst p)) acc) (repeat 0 n) ps.
Definition rows_p (n : nat) (ps : list (list R * R)) : Prop := List.Forall (fun p => length (fst p) = n) ps.
Lemma lincomb_length n ps : rows_p n ps -> length (lincomb n ps) = n.
Proof. induction 1; simpl; [apply repeat_length|]. lens. Qed.
Lemma tr_lincomb n J : rows n J -> forall w, length w = length J -> mulL (trL n J) w = lincomb n (combine J w).
Proof.
  induction 1 as [|r J Hr HJ IH]; intros w L.
  - destruct w; [|discriminate]. now rewrite tr_nil.
  - destruct w as [|a w]; [discriminate|]. simpl in L. rewrite tr_cons by auto. simpl. f_equal. apply IH. lia.
Qed.
Lemma combine_mul J v : combine J (mulL J v) = map (fun r => (r, dotL r v)) J.
Proof. induction J as [|r J IH]; simpl; [reflexivity | now rewrite IH]. Qed.
Lemma add_swap u : forall v w, addL u (addL v w) = addL v (addL u w).
Proof. unfold addL. induction u as [|x u IH]; intros [|y v] [|z w]; simpl; auto. rewrite IH. f_equal. ring. Qed.
Lemma lincomb_perm n ps qs : Permutation ps qs -> lincomb n ps = lincomb n qs.
Proof. induction 1; simpl; try congruence. apply add_swap. Qed.
Lemma sum_perm u v : Permutation u v -> sumR u = sumR v.
Proof. unfold sumR. induction 1; simpl; lra. Qed.
Lemma combine_rows n J : rows n J -> forall w, rows_p n (combine J w).
Proof. induction 1; intros [|a w]; simpl; constructor; auto. apply IHForall. Qed.
Lemma map_fst_combine {A B} (l : list A) : forall (l' : list B), length l = length l' -> map fst (combine l l') = l.
Proof. induction l; intros [|b l'] L; simpl in *; try discriminate; auto. f_equal. apply IHl. lia. Qed.
Lemma map_snd_combine {A B} (l : list A) : forall (l' : list B), length l = length l' -> map snd (combine l l') = l'.
Proof. induction l; intros [|b l'] L; simpl in *; try discriminate; auto. f_equal. apply IHl. lia. Qed.
Lemma neg_scl u : negL u = sclL (-1) u.
Proof. unfold negL, sclL. apply map_ext. intros. ring. Qed.
Lemma sub_addneg u : forall v, subL u v = addL u (negL v).
Proof. unfold subL, addL, negL. induction u as [|x u IH]; intros [|y v]; simpl; auto. rewrite IH. f_equal. Qed.

Lemma mbind_eq {T U} (m : M xR T) (f : T -> M xR U) h :
  mbind m f h = match m h with (h', Val x) => f x h' | (h', Panic) => (h', Panic) end.
Proof. reflexivity. Qed.

Section Sim.
Variables (s1 s2 : sketch) (n : nat) (Rel : heap xR -> heap xR -> Prop) (Q Dm : list R -> list R).
(** Q is a linear isometry and Dm an affine map with linear part Q, on vectors of n entries *)
Hypothesis Q_len : forall v, length v = n -> length (Q v) = n.
Hypothesis Q_add : forall u v, length u = n -> length v = n -> Q (addL u v) = addL (Q u) (Q v).
Hypothesis Q_scl : forall a v, length v = n -> Q (sclL a v) = sclL a (Q v).
Hypothesis Q_dot : forall u v, length u = n -> length v = n -> dotL (Q u) (Q v) = dotL u v.
Hypothesis D_len : forall v, length v = n -> length (Dm v) = n.
Hypothesis D_add : forall x d, length x = n -> length d = n -> Dm (addL x d) = addL (Dm x) (Q d).

Hypothesis rel_data : forall h1 h2, Rel h1 h2 -> exists x, length x = n /\ get_data h1 s1 = FinV x /\ get_data h2 s2 = FinV (Dm x).
Hypothesis rel_loss : forall h1 h2, Rel h1 h2 -> get_loss h2 s2 = get_loss h1 s1.
Hypothesis rel_grad : forall h1 h2, Rel h1 h2 -> exists h1' h2', Rel h1' h2' /\
  ((exists g, length g = n /\ get_gradient s1 h1 = (h1', Val (FinV g)) /\ get_gradient s2 h2 = (h2', Val (FinV (Q g)))) \/
   (get_gradient s1 h1 = (h1', Panic) /\ get_gradient s2 h2 = (h2', Panic))).
Hypothesis rel_set : forall h1 h2 x, Rel h1 h2 -> length x = n -> exists h1' h2', Rel h1' h2' /\
  set_data s1 (FinV x) h1 = (h1', Val tt) /\ set_data s2 (FinV (Dm x)) h2 = (h2', Val tt).

Definition sim {T} (a b : heap xR * out T) : Prop := Rel (fst a) (fst b) /\ snd a = snd b.
Lemma Q_neg v : length v = n -> Q (negL v) = negL (Q v).
Proof. intros L. now rewrite !neg_scl, Q_scl. Qed.
Lemma Q_sub u v : length u = n -> length v = n -> Q (subL u v) = subL (Q u) (Q v).
Proof. intros L1 L2. rewrite !sub_addneg, Q_add, Q_neg; auto. now rewrite negL_length. Qed.
Lemma D_sub x d : length x = n -> length d = n -> Dm (subL x d) = subL (Dm x) (Q d).
Proof. intros L1 L2. rewrite !sub_addneg, D_add, Q_neg; auto. now rewrite negL_length. Qed.
Lemma Q_zero : Q (repeat 0 n) = repeat 0 n.
Proof.
  assert (L : length (repeat 0 n) = n) by apply repeat_length.
  assert (E : sclL 0 (repeat 0 n) = repeat 0 n) by (rewrite scl_zeros by auto; now rewrite L).
  rewrite <- E at 1. rewrite Q_scl by auto. rewrite scl_zeros by auto. now rewrite Q_len.
Qed.
Lemma Q_lincomb ps : rows_p n ps -> Q (lincomb n ps) = lincomb n (map (fun p => (Q (fst p), snd p)) ps).
Proof.
  induction 1 as [|[r a] ps Hr Hp IH]; simpl; [apply Q_zero|]. simpl in Hr.
  rewrite Q_add, Q_scl, IH; auto; [now rewrite sclL_length | now apply lincomb_length].
Qed.

(** ** line search *)
Lemma search_sim x d loss m curv : length x = n -> length d = n -> forall k a h1 h2, Rel h1 h2 ->
  sim (ls_loop s1 (FinV x) (FinV d) loss m curv k (Fin a) h1) (ls_loop s2 (FinV (Dm x)) (FinV (Q d)) loss m curv k (Fin a) h2) /\
  forall al, snd (ls_loop s1 (FinV x) (FinV d) loss m curv k (Fin a) h1) = Val (LOk al) -> exists r, al = Fin r.
Proof.
  intros Lx Ld. induction k as [|k IH]; intros a h1 h2 H; cbn [ls_loop].
  { split; [split; auto|]. simpl. intros; discriminate. }
  rewrite !mbind_eq. rewrite !vscale_R, !vadd_R.
  destruct (rel_set h1 h2 (addL x (sclL a d)) H) as (k1 & k2 & Hk & -> & E2); [lens|].
  rewrite D_add, Q_scl in E2 by (auto; lens). rewrite E2. rewrite (rel_loss _ _ Hk).
  unfold wolfe_c1. destruct (fle _ _).
  - rewrite !mbind_eq. destruct (rel_grad _ _ Hk) as (j1 & j2 & Hj & [(g & Lg & -> & ->)|[-> ->]]).
    2:{ split; [split; auto|]. simpl. intros; discriminate. }
    rewrite !vdot_R, Q_dot by auto. destruct (fge _ _).
    + split; [split; auto|]. simpl. intros al E. injection E as <-. eauto.
    + rewrite l151_R, mul_R. now apply IH.
  - rewrite fhalf_R, mul_R. now apply IH.
Qed.
Lemma line_sim d g h1 h2 : length d = n -> length g = n -> Rel h1 h2 ->
  sim (line_search_wolfe s1 (FinV d) (FinV g) h1) (line_search_wolfe s2 (FinV (Q d)) (FinV (Q g)) h2) /\
  forall al, snd (line_search_wolfe s1 (FinV d) (FinV g) h1) = Val (LOk al) -> exists r, al = Fin r.
Proof.
  intros Ld Lg H. unfold line_search_wolfe. rewrite !vdot_R, Q_dot by auto. destruct (fge _ _).
  { split; [split; auto|]. simpl. intros; discriminate. }
  rewrite (rel_loss _ _ H). destruct (rel_data _ _ H) as (x & Lx & -> & ->). rewrite f1_R. now apply search_sim.
Qed.

(** ** gradient descent *)
Lemma gd_sim P : forall k it gr l h1 h2, Rel h1 h2 -> length gr = n ->
  sim (gd_loop s1 P k it (FinV gr) (vnorm (FinV gr)) l h1) (gd_loop s2 P k it (FinV (Q gr)) (vnorm (FinV (Q gr))) l h2).
Proof.
  induction k as [|k IH]; intros it gr l h1 h2 H Lg; cbn [gd_loop]; [split; auto|].
  assert (Nq : vnorm (FinV (Q gr)) = vnorm (FinV gr)) by (rewrite !vnorm_R, Q_dot; auto). rewrite Nq.
  destruct (flt _ _); [split; auto|]. destruct (flt _ _); [split; auto|].
  rewrite !vneg_R. rewrite !mbind_eq. rewrite <- Q_neg by auto.
  destruct (line_sim (negL gr) gr h1 h2) as [[Hl El] Fl]; auto; [lens|].
  destruct (line_search_wolfe s1 (FinV (negL gr)) (FinV gr) h1) as [j1 [[al|e]|]];
    destruct (line_search_wolfe s2 (FinV (Q (negL gr))) (FinV (Q gr)) h2) as [j2 [[al2|e2]|]]; cbn [fst snd] in *; try discriminate.
  2:{ injection El as <-. split; auto. }
  2:{ split; auto. }
  injection El as <-. destruct (Fl al eq_refl) as [a ->].
  destruct (rel_data _ _ H) as (x & Lx & -> & ->). unfold f1. rewrite !vaxpy_R.
  rewrite !mbind_eq. destruct (rel_set j1 j2 (addL x (sclL a (negL gr))) Hl) as (k1 & k2 & Hk & -> & E2); [lens|].
  rewrite D_add, Q_scl in E2 by (auto; lens). rewrite E2. rewrite (rel_loss _ _ Hk).
  rewrite !mbind_eq. destruct (rel_grad _ _ Hk) as (i1 & i2 & Hi & [(g & Lg' & -> & ->)|[-> ->]]); [|split; auto].
  now apply IH.
Qed.
Lemma gd_run_sim P h1 h2 : Rel h1 h2 -> sim (gd_run s1 P h1) (gd_run s2 P h2).
Proof.
  intros H. unfold gd_run. rewrite !mbind_eq. destruct (rel_grad _ _ H) as (i1 & i2 & Hi & [(g & Lg' & -> & ->)|[-> ->]]); [|split; auto].
  rewrite (rel_loss _ _ Hi). now apply gd_sim.
Qed.

(** ** BFGS *)
Section B.
Hypothesis Q_inf : forall v, length v = n -> vnorm_inf (FinV (Q v)) = vnorm_inf (FinV v).
Definition MR (m1 m2 : list (list R)) : Prop :=
  square n m1 /\ square n m2 /\ forall v, length v = n -> mulL m2 (Q v) = Q (mulL m1 v).
Lemma MR_id : MR (idL n) (idL n).
Proof. split; [apply id_square|]. split; [apply id_square|]. intros v L. rewrite !id_mul; auto. Qed.
Lemma MR_upd m1 m2 sv y c : MR m1 m2 -> length sv = n -> length y = n -> MR (updL m1 sv y c) (updL m2 (Q sv) (Q y) c).
Proof.
  intros (S1 & S2 & H) Ls Ly. assert (Lq := Q_len sv Ls). assert (Lqy := Q_len y Ly).
  split; [now apply upd_square|]. split; [now apply upd_square|]. intros v Lv.
  assert (Lm : forall w, length (mulL m1 w) = n) by (intros; rewrite mulL_length; apply S1).
  rewrite (upd_mul n) by auto. rewrite (upd_mul n m1) by auto.
  rewrite !H by auto. rewrite !Q_dot by auto.
  generalize (Lm y) (Lm v). generalize (mulL m1 y) (mulL m1 v). intros a b La Lb.
  rewrite !Q_add by (auto; lens). rewrite !Q_scl by auto. reflexivity.
Qed.
Lemma bfgs_sim P : forall f it x m1 m2 b h1 h2, Rel h1 h2 -> length x = n -> MR m1 m2 ->
  sim (bfgs_loop s1 P f it (FinV x) (FinM m1) b h1) (bfgs_loop s2 P f it (FinV (Dm x)) (FinM m2) b h2).
Proof.
  induction f as [|f IH]; intros it x m1 m2 b h1 h2 H Lx HM; cbn [bfgs_loop]; [split; auto|].
  destruct (negb _); [split; auto|]. rewrite (rel_loss _ _ H). destruct (flt _ _); [split; auto|].
  rewrite !mbind_eq. destruct (rel_grad _ _ H) as (i1 & i2 & Hi & [(g & Lg & -> & ->)|[-> ->]]); [|split; auto].
  rewrite !finite_FinV, Q_inf by auto. cbn [negb]. destruct (flt _ _); [split; auto|].
  rewrite !dir_R, !finite_FinV. cbn [negb]. pose proof HM as (S1 & S2 & HQ). rewrite HQ by auto.
  assert (Lm : length (mulL m1 g) = n) by (rewrite mulL_length; apply S1).
  rewrite <- Q_neg by auto. set (p := negL (mulL m1 g)). assert (Lp : length p = n) by (unfold p; now rewrite negL_length).
  rewrite !mbind_eq. destruct (line_sim p g i1 i2) as [[Hl El] Fl]; auto.
  destruct (line_search_wolfe s1 (FinV p) (FinV g) i1) as [j1 [[al|e]|]];
    destruct (line_search_wolfe s2 (FinV (Q p)) (FinV (Q g)) i2) as [j2 [[al2|e2]|]]; cbn [fst snd] in *; try discriminate.
  3:{ split; auto. }
  2:{ injection El as <-. destruct e; [split; auto|]. destruct b; [split; auto|].
      rewrite !FinV_length, D_len, Lx by auto. rewrite !mident_R. apply IH; auto. apply MR_id. }
  injection El as <-. destruct (Fl al eq_refl) as [a ->]. rewrite !vscale_R, !vadd_R.
  rewrite !mbind_eq. destruct (rel_set j1 j2 (addL x (sclL a p)) Hl) as (k1 & k2 & Hk & -> & E2); [lens|].
  rewrite D_add, Q_scl in E2 by (auto; lens). rewrite E2. rewrite <- Q_scl in * by auto. rewrite <- D_add by (auto; lens).
  rewrite !mbind_eq. destruct (rel_grad _ _ Hk) as (u1 & u2 & Hu & [(g' & Lg' & -> & ->)|[-> ->]]); [|split; auto].
  rewrite !vsub_R, <- Q_sub by auto. rewrite !sdoty_R, !Q_dot by (auto; lens).
  rewrite !bfgs_update_R by apply sdoty_nonzero. apply IH; auto; [lens|]. apply MR_upd; auto; lens.
Qed.
Lemma bfgs_run_sim P h1 h2 : Rel h1 h2 -> sim (bfgs_run s1 P h1) (bfgs_run s2 P h2).
Proof.
  intros H. unfold bfgs_run. destruct (rel_data _ _ H) as (x & Lx & -> & ->).
  rewrite !FinV_length, D_len, Lx by auto. rewrite mident_R. apply bfgs_sim; auto. apply MR_id.
Qed.
End B.

(** ** Gauss-Newton and Levenberg-Marquardt *)
Section NLS.
Variable pinv : mat xR -> xR -> pinv_res (mat xR).
Hypothesis PE : forall a b eps, symmetric n a -> symmetric n b -> (forall v, length v = n -> mulL b (Q v) = Q (mulL a v)) ->
  match pinv (FinM a) eps, pinv (FinM b) eps with
  | PInv x, PInv y => exists p q, x = FinM p /\ y = FinM q /\ square n p /\ square n q /\
      forall v, length v = n -> mulL q (Q v) = Q (mulL p v)
  | PErr, PErr => True
  | PPanic, PPanic => True
  | _, _ => False
  end.
Hypothesis rel_jac : forall h1 h2, Rel h1 h2 -> exists h1' h2', Rel h1' h2' /\
  ((exists J1 J2 w1 w2, get_jacobian s1 h1 = (h1', Val (FinM J1)) /\ get_jacobian s2 h2 = (h2', Val (FinM J2)) /\
      get_loss_per_constraint h1 s1 = FinV w1 /\ get_loss_per_constraint h2 s2 = FinV w2 /\
      rows n J1 /\ rows n J2 /\ length w1 = length J1 /\ length w2 = length J2 /\
      Permutation (combine J2 w2) (map (fun p => (Q (fst p), snd p)) (combine J1 w1))) \/
   (get_jacobian s1 h1 = (h1', Panic) /\ get_jacobian s2 h2 = (h2', Panic))).

Lemma jtj_rel J1 J2 w1 w2 v : rows n J1 -> rows n J2 -> length w1 = length J1 -> length w2 = length J2 ->
  Permutation (combine J2 w2) (map (fun p => (Q (fst p), snd p)) (combine J1 w1)) -> length v = n ->
  mulL (trL n J2) w2 = Q (mulL (trL n J1) w1) /\
  mulL (trL n J2) (mulL J2 (Q v)) = Q (mulL (trL n J1) (mulL J1 v)) /\ vsum (FinV w2) = vsum (FinV w1).
Proof.
  intros R1 R2 L1 L2 HP Lv. split; [|split].
  - rewrite !tr_lincomb by auto. rewrite Q_lincomb by now apply combine_rows. now apply lincomb_perm.
  - rewrite !tr_lincomb by (auto; apply mulL_length). rewrite !combine_mul, Q_lincomb.
    2:{ unfold rows_p. apply List.Forall_forall. intros p Hp. apply in_map_iff in Hp as (r & <- & Hr).
        unfold rows in R1. rewrite List.Forall_forall in R1. simpl. auto. }
    assert (HJ : Permutation J2 (map Q J1)).
    { apply (Permutation_map fst) in HP. rewrite map_fst_combine in HP by auto. rewrite map_map in HP. cbn [fst] in HP.
      rewrite <- (map_map fst Q), map_fst_combine in HP by auto. exact HP. }
    rewrite (lincomb_perm n _ _ (Permutation_map (fun r => (r, dotL r (Q v))) HJ)). rewrite !map_map. cbn [fst snd]. f_equal.
    apply map_ext_in. intros r Hr. f_equal. apply Q_dot; auto. unfold rows in R1. rewrite List.Forall_forall in R1. auto.
  - rewrite !vsum_R. f_equal. apply (Permutation_map snd) in HP. rewrite map_snd_combine in HP by auto.
    rewrite map_map in HP. cbn [snd] in HP. rewrite map_snd_combine in HP by auto. now apply sum_perm.
Qed.
Lemma nls_sim normal ml eps st b : (forall J, rows n J -> exists N, normal n (FinM J) = FinM N /\ symmetric n N /\
     forall v, length v = n -> mulL N v = addL (mulL (trL n J) (mulL J v)) (sclL b v)) ->
  forall k it l h1 h2, Rel h1 h2 ->
  sim (nls_loop pinv s1 normal ml eps (Fin st) k it l h1) (nls_loop pinv s2 normal ml eps (Fin st) k it l h2).
Proof.
  intros HN. induction k as [|k IH]; intros it l h1 h2 H; cbn [nls_loop]; [split; auto|].
  destruct (negb _); [split; auto|]. rewrite !mbind_eq.
  destruct (rel_jac _ _ H) as (i1 & i2 & Hi & [(J1 & J2 & w1 & w2 & -> & -> & Ew1 & Ew2 & R1 & R2 & L1 & L2 & HP)|[-> ->]]); [|split; auto].
  rewrite Ew1, Ew2. destruct (rel_data _ _ H) as (x & Lx & -> & ->).
  unfold nls_step. rewrite !FinV_length, D_len, Lx by auto.
  destruct (HN J1 R1) as (N1 & -> & Y1 & M1). destruct (HN J2 R2) as (N2 & -> & Y2 & M2).
  assert (NQ : forall v, length v = n -> mulL N2 (Q v) = Q (mulL N1 v)).
  { intros v Lv. rewrite M1, M2 by auto. destruct (jtj_rel J1 J2 w1 w2 v) as (_ & -> & _); auto.
    rewrite Q_add, Q_scl; auto; [rewrite mulL_length; apply trL_length | lens]. }
  specialize (PE N1 N2 eps Y1 Y2 NQ).
  destruct (pinv (FinM N1) eps) as [X| |]; destruct (pinv (FinM N2) eps) as [Y| |]; try contradiction; [|split; auto|split; auto].
  destruct PE as (p & q & -> & -> & Sp & Sq & Hq).
  rewrite !mtrans_R, !mmul_R, !mvec_R, !vmuls_R, !vsub_R.
  assert (T : forall J, length (trL n J) = n) by (intros; apply trL_length).
  rewrite !mm_mul; auto.
  2:{ rewrite L2. apply trL_rows. }
  2:{ rewrite T. apply Sq. }
  2:{ rewrite L1. apply trL_rows. }
  2:{ rewrite T. apply Sp. }
  destruct (jtj_rel J1 J2 w1 w2 x) as (-> & _ & Ev); auto.
  assert (Lt : length (mulL (trL n J1) w1) = n) by (rewrite mulL_length; apply trL_length).
  rewrite Hq by auto. set (d := mulL p (mulL (trL n J1) w1)). assert (Ld : length d = n) by (unfold d; rewrite mulL_length; apply Sp).
  rewrite <- Q_scl by auto. rewrite <- D_sub by (auto; lens).
  rewrite !mbind_eq. destruct (rel_set i1 i2 (subL x (sclL st d)) Hi) as (k1 & k2 & Hk & -> & ->); [lens|].
  rewrite Ev. now apply IH.
Qed.
End NLS.
End Sim.
