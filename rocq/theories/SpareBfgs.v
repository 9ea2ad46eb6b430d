(** * Unconstrained primitives and BFGS in exact arithmetic (for C95) *)
From Coq Require Import List ZArith NArith Arith Bool Lia Reals Lra.
From Verif Require Import Arith Vec Prim Cons Sketch Solve Api Spec HeapLemmas SolveLemmas BookLemmas WfLemmas DataLemmas SpecLemmas PureLemmas
  ArithR ExactSpec ExactLemmas RMat GradLemmas RestLemmas StepLemmas StayLemmas ExactRun SymLemmas SpareSpec SpareLemmas SpareForms.
Import ListNotations.
Local Open Scope R_scope.

Section X.
Variables (keep : pcell -> bool) (cs : list pcell).
Let Z0 : pcell -> list R := fun c => repeat 0 (dim c).
Notation pd := (pads keep Z0 cs).
Lemma pd_len u v : pd u v -> length u = dims (filter keep cs) /\ length v = dims cs.
Proof.
  induction 1 as [|c l x u v Hk Hl P [I1 I2]|c l u v Hk P [I1 I2]]; cbn [filter]; [now split| |]; rewrite Hk, ?app_length.
  - change (dims (c :: filter keep l)) with (dim c + dims (filter keep l))%nat. change (dims (c :: l)) with (dim c + dims l)%nat. lia.
  - change (dims (c :: l)) with (dim c + dims l)%nat. unfold Z0. rewrite repeat_length. lia.
Qed.
Lemma pd_scl a u v : pd u v -> pd (sclL a u) (sclL a v).
Proof. intros P. eapply pads_ext; [|apply (pads_map keep (Rmult a)), P]. intros c _ _. unfold Z0. rewrite map_repeat. f_equal. lra. Qed.
Lemma pd_neg u v : pd u v -> pd (negL u) (negL v).
Proof. intros P. eapply pads_ext; [|apply (pads_map keep Ropp), P]. intros c _ _. unfold Z0. rewrite map_repeat. f_equal. lra. Qed.
Lemma rep_map2 (f : R -> R -> R) k : f 0 0 = 0 -> map2 f (repeat 0 k) (repeat 0 k) = repeat 0 k.
Proof. intros E. induction k; [reflexivity|]. cbn [repeat map2]. now rewrite E, IHk. Qed.
Lemma pd_add u v u' v' : pd u v -> pd u' v' -> pd (addL u u') (addL v v').
Proof. intros P Q. eapply pads_ext; [|apply (pads_map2 keep Rplus _ _ _ (fun _ _ _ => eq_refl) _ _ _ _ P Q)]. intros c _ _. unfold Z0. rewrite rep_map2; auto; lra. Qed.
Lemma pd_sub u v u' v' : pd u v -> pd u' v' -> pd (subL u u') (subL v v').
Proof. intros P Q. eapply pads_ext; [|apply (pads_map2 keep Rminus _ _ _ (fun _ _ _ => eq_refl) _ _ _ _ P Q)]. intros c _ _. unfold Z0. rewrite rep_map2; auto; lra. Qed.
Lemma pd_dot u v u' v' : pd u v -> pd u' v' -> dotL v v' = dotL u u'.
Proof. intros P Q. apply (pads_dot keep Z0 cs); auto. intros; apply repeat_length. Qed.
Lemma pd_max u v : pd u v -> amax v = amax u.
Proof.
  induction 1 as [|c l x u v Hk Hl P IH|c l u v Hk P IH]; [reflexivity| |]; rewrite !amax_app, IH; [reflexivity|].
  replace (amax (Z0 c)) with 0; [apply Rmax_right, amax_pos|]. unfold Z0. induction (dim c) as [|k IHk]; [reflexivity|]. cbn [repeat amax fold_right].
  fold (amax (repeat 0 k)). rewrite <- IHk, Rabs_R0. symmetry. apply Rmax_left. lra.
Qed.
(** the two forms of a padded vector *)
Lemma pd_of (z : xR) g g' : z = Fin 0 -> pads keep (fun c => repeat z (dim c)) cs g g' -> all_finite g = true -> exists r r', g = FinV r /\ g' = FinV r' /\ pd r r'.
Proof.
  intros -> P Fg.
  assert (Fg' : all_finite g' = true) by (apply (pads_fin _ _ _ _ _ (fun c _ => zeros_fin (dim c) (Fin 0) eq_refl) P Fg)).
  exists (map vx g), (map vx g'). split; [now apply FinV_vx|]. split; [now apply FinV_vx|].
  eapply pads_ext; [|apply pads_map, P]. intros c _ _. unfold Z0. cbv beta. now rewrite map_repeat.
Qed.
Lemma pd_to (z : xR) r r' : z = Fin 0 -> pd r r' -> pads keep (fun c => repeat z (dim c)) cs (FinV r) (FinV r').
Proof. intros -> P. eapply pads_ext; [|apply (pads_map keep Fin), P]. intros c _ _. unfold Z0. cbv beta. now rewrite map_repeat. Qed.

Definition HR (m m' : mat xR) : Prop := exists M M', m = FinM M /\ m' = FinM M' /\ square (dims (filter keep cs)) M /\ square (dims cs) M' /\
  forall u v, pd u v -> pd (mulL M u) (mulL M' v).
Lemma HR_id : HR (mident (dims (filter keep cs))) (mident (dims cs)).
Proof.
  exists (idL (dims (filter keep cs))), (idL (dims cs)). rewrite !mident_R. split; [reflexivity|]. split; [reflexivity|]. split; [apply id_square|]. split; [apply id_square|].
  intros u v P. destruct (pd_len u v P). now rewrite !id_mul.
Qed.
Lemma HR_dir m m' g g' : HR m m' -> pads keep (fun c => repeat (f0 : xR) (dim c)) cs g g' -> all_finite g = true ->
  pads keep (fun c => repeat (fneg f0 : xR) (dim c)) cs (mvec (mneg m) g) (mvec (mneg m') g') /\ all_finite (mvec (mneg m) g) = true /\ all_finite (mvec (mneg m') g') = true.
Proof.
  intros (M & M' & -> & -> & S1 & S2 & H) P Fg. destruct (pd_of f0 g g' f0_R P Fg) as (r & r' & -> & -> & Pr).
  rewrite !dir_R. split; [|split; apply finite_FinV]. apply pd_to; [rewrite f0_R; cbn; f_equal; lra|]. now apply pd_neg, H.
Qed.
Lemma HR_upd m m' a p p' g g' q q' : HR m m' -> ffin a = true -> pads keep (fun c => repeat (fneg f0 : xR) (dim c)) cs p p' -> all_finite p = true ->
  pads keep (fun c => repeat (f0 : xR) (dim c)) cs g g' -> all_finite g = true -> pads keep (fun c => repeat (f0 : xR) (dim c)) cs q q' -> all_finite q = true ->
  HR (bfgs_update m (vscale a p) (vsub q g) (bfgs_sdoty (vscale a p) (vsub q g)))
     (bfgs_update m' (vscale a p') (vsub q' g') (bfgs_sdoty (vscale a p') (vsub q' g'))).
Proof.
  intros (M & M' & -> & -> & S1 & S2 & H) Fa Pp Fp Pg Fg Pq Fq. destruct a as [a| | |]; try discriminate.
  destruct (pd_of f0 g g' f0_R Pg Fg) as (r & r' & -> & -> & Pr). destruct (pd_of f0 q q' f0_R Pq Fq) as (t & t' & -> & -> & Pt).
  destruct (pd_of (fneg f0) p p') as (o & o' & -> & -> & Po); [rewrite f0_R; cbn; f_equal; lra | exact Pp | exact Fp|].
  rewrite !vscale_R, !vsub_R, !sdoty_R.
  pose proof (pd_scl a _ _ Po) as Ps. pose proof (pd_sub _ _ _ _ Pt Pr) as Py.
  rewrite (pd_dot _ _ _ _ Ps Py). rewrite !bfgs_update_R by apply sdoty_nonzero.
  destruct (pd_len _ _ Ps) as [L1 L2]. destruct (pd_len _ _ Py) as [L3 L4].
  generalize (sdoty_nonzero (dotL (sclL a o) (subL t r))). generalize (if Rlt_dec (Rabs (dotL (sclL a o) (subL t r))) (/ 10000000000000000) then dotL (sclL a o) (subL t r) + / 1000000 else dotL (sclL a o) (subL t r)).
  intros c Hc. eexists. eexists. split; [reflexivity|]. split; [reflexivity|].
  split; [now apply upd_square|]. split; [now apply upd_square|].
  intros u v Pu. destruct (pd_len _ _ Pu) as [L5 L6].
  rewrite (upd_mul (dims (filter keep cs)) M) by auto. rewrite (upd_mul (dims cs) M') by auto.
  rewrite (pd_dot _ _ _ _ (H _ _ Py) Pu), (pd_dot _ _ _ _ Ps Pu), (pd_dot _ _ _ _ Py (H _ _ Py)).
  apply pd_add; [now apply pd_scl|]. apply pd_add; [apply pd_scl; auto|]. apply pd_add; [now apply pd_scl|]. auto.
Qed.
End X.

Lemma data_len keep cs (h : heap xR) u v : pads keep (prim_data h) cs u v -> length u = dims (filter keep cs) /\ length v = dims cs.
Proof.
  induction 1 as [|c l x u v Hk Hl P [I1 I2]|c l u v Hk P [I1 I2]]; cbn [filter]; [now split| |]; rewrite Hk, ?app_length, ?prim_data_dim.
  - change (dims (c :: filter keep l)) with (dim c + dims (filter keep l))%nat. change (dims (c :: l)) with (dim c + dims l)%nat. lia.
  - change (dims (c :: l)) with (dim c + dims l)%nat. lia.
Qed.
Lemma C95_bfgs_lemma P (h : heap xR) s s' : valid h s -> valid h s' -> finite_data h s' -> with_spare h s s' -> same_course (bfgs_run s P h) (bfgs_run s' P h).
Proof.
  intros V V' Fd W.
  assert (FD : forall c, In c (cells s') -> all_finite (prim_data h c) = true).
  { intros c Hc. apply forallb_forall. apply Forall_forall. apply Fd. now apply (valid_reg _ _ _ V'). }
  assert (Fx : forall c d, In c (cells s') -> In d (prim_data h c) -> exists r, d = Fin r).
  { intros c d Hc Hd. specialize (FD c Hc). unfold all_finite in FD. rewrite forallb_forall in FD. specialize (FD d Hd). destruct d; try discriminate. eauto. }
  apply (spare_bfgs s s' h V V' W (fun _ a => ffin a = true)) with (HR := HR (has_cell s) (cells s')).
  - reflexivity.
  - intros n a Ha. destruct a; try discriminate. reflexivity.
  - intros n a Ha. destruct a; try discriminate. reflexivity.
  - reflexivity.
  - intros c Hc _. now apply FD.
  - intros a c d Hc _ Hd (n & Ha). destruct (Fx c d Hc Hd) as (r & ->). destruct a; try discriminate. apply f_equal with (f := Fin). simpl. lra.
  - exact (dot_exact (has_cell s) (cells s') f0 (fneg f0) f0_R eq_refl).
  - intros u v Pu. destruct (data_len (has_cell s) (cells s') h u v Pu) as [-> ->]. apply HR_id.
  - intros g g' Q Fg. destruct (pd_of _ _ f0 g g' f0_R Q Fg) as (r & r' & -> & -> & Pr). split; [apply finite_FinV|]. rewrite !vnorm_inf_R. f_equal. now apply (pd_max (has_cell s) (cells s')).
  - apply HR_dir.
  - intros m m' a p p' g g' q q' Hm (n & Ha). now apply HR_upd.
Qed.
