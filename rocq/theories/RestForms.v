(** * Runs that leave a cell at rest, in binary64 (proofs for C31) *)
From Coq Require Import List ZArith NArith Arith Bool Lia Floats.SpecFloat.
From Verif Require Import Arith Vec Prim Cons Sketch Solve Api Spec SolverSpec ExactSpec NumSpec ArithF FloatLemmas RestSpec
  HeapLemmas SolveLemmas WfLemmas DataLemmas SpecLemmas GradLemmas SearchLemmas RestLemmas MonoFloat RestFloat.
Import ListNotations.

(** ** Runs *)
Section R.
Variable L : libm.
Local Instance A' : Arith spec_float := ArithF L.
Variables (s : sketch) (h0 : heap spec_float) (c : pcell).
Hypothesis V : valid h0 s.
Hypothesis Hc : In c (cells s).
Hypothesis HK : forall k, In k (s_cons s) -> ~ In c (deps h0 (getK h0 k)).
Variables (sm : spec_float -> spec_float -> Prop) (Zd : spec_float -> Prop).
Hypothesis Sm : forall a x x0 z, pos64 a = true -> sm x x0 -> Zd z -> sm (x +f a *f z) x0.
Let cs := cells s.
Definition KF (h : heap spec_float) : Prop := frame s h0 h /\ Forall2 sm (prim_data h c) (prim_data h0 c).
Definition atF (v : list spec_float) : Prop := Forall2 sm (chunk cs v c) (prim_data h0 c).
Definition dirF (P : spec_float -> Prop) (v : list spec_float) : Prop := Forall P (chunk cs v c) /\ length (chunk cs v c) = dim c.
Lemma KF_sd h h' : sdeq h h' -> KF h -> KF h'.
Proof.
  intros S [H1 H2]. split; [eapply frame_trans; [exact H1 | now apply sd_frame_of]|].
  rewrite <- (proj2 S) in H2 by exact I. exact H2.
Qed.
Lemma KF_data h : KF h -> atF (get_data h s).
Proof. intros [_ H]. unfold atF, get_data. rewrite chunk_flat; auto. apply prim_data_dim. Qed.
Lemma KF_valid h : KF h -> valid h s.
Proof. intros [H _]. eapply valid_struct; [exact V | exact (frame_struct _ _ _ H)]. Qed.
Lemma KF_set h v : KF h -> atF v -> KF (fst (set_data s v h)).
Proof.
  intros Hh Hv. pose proof (KF_valid h Hh) as Vh. destruct Hh as [H1 H2]. split.
  - eapply frame_trans; [exact H1|]. destruct (set_data s v h) as [h' r] eqn:E. exact (set_frame _ _ _ _ _ E).
  - destruct (set_either s v h c Vh Hc) as [-> | ->]; auto.
Qed.
Lemma KF_grad h h' g : KF h -> get_gradient s h = (h', Val g) -> chunk cs g c = repeat f0 (dim c).
Proof.
  intros Hh E. eapply untouched_grad; [exact (KF_valid _ Hh) | exact Hc | | exact E].
  intros k Hk. destruct Hh as [[S _] _]. rewrite (struct_getK _ _ _ S). unfold deps.
  rewrite (flat_map_ext _ (fun r => r :: prim_refs h0 r)); [now apply HK|]. intros r. now rewrite (struct_refs _ _ _ S).
Qed.
Lemma step_at (f : spec_float -> spec_float -> spec_float) : (forall x x0 z, sm x x0 -> Zd z -> sm (f x z) x0) ->
  forall x d, atF x -> dirF Zd d -> Forall2 sm (map2 f (chunk cs x c) (chunk cs d c)) (prim_data h0 c).
Proof.
  intros H x d Hx [Hd Ld]. unfold atF in Hx. rewrite <- (prim_data_dim h0 c) in Ld. revert Ld Hd Hx.
  generalize (chunk cs x c) (chunk cs d c) (prim_data h0 c).
  induction l as [|y l IH]; intros [|z l0] [|w l1] Ld Hd Hx; simpl in *; try discriminate; inversion Hx; subst; constructor.
  - inversion Hd; subst. now apply H.
  - inversion Hd; subst. apply IH; auto.
Qed.
Lemma at_add x d a : pos64 a = true -> atF x -> dirF Zd d -> atF (vadd x (vscale a d)).
Proof.
  intros Ha Hx Hd. unfold atF, vadd, vscale. rewrite chunk_map2, chunk_map.
  pose proof (step_at (fun x z => x +f a *f z) (fun x x0 z => Sm a x x0 z Ha) x d Hx Hd) as G.
  replace (map2 fadd (chunk cs x c) (map (fmul a) (chunk cs d c))) with (map2 (fun x z => x +f a *f z) (chunk cs x c) (chunk cs d c)); auto.
  generalize (chunk cs x c) (chunk cs d c). clear. induction l as [|y l IH]; intros [|z m]; cbn [map2 map]; auto. now rewrite IH.
Qed.
Lemma Steps : steps_ok L ls_max_iter f1 = true.
Proof. unfold ls_max_iter. exact (steps_15 L). Qed.
Lemma search_KF x d loss m curv : atF x -> dirF Zd d -> forall k a h, steps_ok L k a = true -> KF h ->
  KF (fst (ls_loop s x d loss m curv k a h)) /\
  (forall al, snd (ls_loop s x d loss m curv k a h) = Val (LOk al) -> pos64 al = true).
Proof.
  intros Hx Hd. induction k as [|k IH]; intros a h Ha Hh; cbn [ls_loop]; [split; auto; discriminate|].
  cbn [steps_ok] in Ha. apply andb_true_iff in Ha as [Ha Hn]. apply andb_true_iff in Hn as [Hn1 Hn2].
  unfold mbind at 1. unfold mbind at 2. pose proof (KF_set h (vadd x (vscale a d)) Hh (at_add x d a Ha Hx Hd)) as K1.
  destruct (set_data s (vadd x (vscale a d)) h) as [h1 [u|]]; cbn [fst snd] in *; [|split; auto; discriminate].
  destruct (fle _ _).
  - unfold mbind. destruct (get_gradient s h1) as [h2 [g|]] eqn:Eg;
    assert (K2 : KF h2) by (eapply KF_sd; [eapply gradient_sd; eauto | auto]).
    + destruct (fge _ _); [split; auto; intros al Ea; injection Ea as <-; auto|]. now apply IH.
    + split; auto. discriminate.
  - now apply IH.
Qed.
Lemma line_KF d g h : dirF Zd d -> KF h ->
  KF (fst (line_search_wolfe s d g h)) /\
  (forall al, snd (line_search_wolfe s d g h) = Val (LOk al) -> pos64 al = true).
Proof.
  intros Hd Hh. unfold line_search_wolfe. destruct (fge _ _); [split; auto; discriminate|].
  apply (search_KF (get_data h s) d _ _ _ (KF_data h Hh) Hd ls_max_iter f1 h); [exact Steps | exact Hh].
Qed.
Section GD.
Hypothesis Sx : forall a x x0 z, pos64 a = true -> sm x x0 -> Zd z -> sm (a *f z +f f1 *f x) x0.
Hypothesis Zg : Zd (fneg f0).
Lemma neg_dir g : chunk cs g c = repeat f0 (dim c) -> dirF Zd (vneg g).
Proof.
  intros E. unfold dirF, vneg. rewrite chunk_map, E, map_length, repeat_length. split; auto.
  rewrite map_repeat. apply Forall_forall. intros x Hx. apply repeat_spec in Hx as ->. exact Zg.
Qed.
Lemma at_axpy x d a : pos64 a = true -> atF x -> dirF Zd d -> atF (vaxpy a d f1 x).
Proof.
  intros Ha Hx Hd. unfold atF, vaxpy. rewrite chunk_map2.
  pose proof (step_at (fun x z => a *f z +f f1 *f x) (fun x x0 z => Sx a x x0 z Ha) x d Hx Hd) as G.
  replace (map2 (fun xi yi => a *f xi +f f1 *f yi) (chunk cs d c) (chunk cs x c)) with (map2 (fun x z => a *f z +f f1 *f x) (chunk cs x c) (chunk cs d c)); auto.
  generalize (chunk cs x c) (chunk cs d c). clear. induction l as [|y l IH]; intros [|z m]; cbn [map2]; auto. now rewrite IH.
Qed.
Lemma gd_KF P : forall k it g nm l h, KF h -> chunk cs g c = repeat f0 (dim c) -> KF (fst (gd_loop s P k it g nm l h)).
Proof.
  induction k as [|k IH]; intros it g nm l h Hh Hg; cbn [gd_loop]; auto.
  destruct (flt nm _); auto. destruct (flt l _); auto. unfold mbind at 1.
  destruct (line_KF (vneg g) g h (neg_dir g Hg) Hh) as [K1 Al].
  destruct (line_search_wolfe s (vneg g) g h) as [h1 [[al|e]|]]; auto. cbn [fst snd] in *. specialize (Al al eq_refl).
  unfold mbind at 1. pose proof (KF_set h1 _ K1 (at_axpy (get_data h s) _ al Al (KF_data h Hh) (neg_dir g Hg))) as K2.
  destruct (set_data s _ h1) as [h2 [u|]]; cbn [fst] in *; auto. unfold mbind.
  destruct (get_gradient s h2) as [h3 [g'|]] eqn:Eg; assert (K3 : KF h3) by (eapply KF_sd; [eapply gradient_sd; eauto | auto]); auto.
  apply IH; auto. exact (KF_grad _ _ _ K2 Eg).
Qed.
Lemma gd_run_KF P : KF h0 -> KF (fst (gd_run s P h0)).
Proof.
  intros H0. unfold gd_run, mbind. destruct (get_gradient s h0) as [h1 [g|]] eqn:Eg;
  assert (K3 : KF h1) by (eapply KF_sd; [eapply gradient_sd; eauto | auto]); auto. apply gd_KF; auto. exact (KF_grad _ _ _ H0 Eg).
Qed.
End GD.
Section BF.
Hypothesis Zz : forall b, Zd (S754_zero b).
Lemma Nd : NoDup cs. Proof. apply V. Qed.
Definition rowsF (m : list (list spec_float)) : Prop := rowsZ cs c m /\ length (chunk cs m c) = dim c.
Lemma zeros_dir g : chunk cs g c = repeat f0 (dim c) -> dirF Z g.
Proof.
  intros E. unfold dirF. rewrite E, repeat_length. split; auto. apply Forall_forall. intros x Hx. apply repeat_spec in Hx as ->. apply Z_zero.
Qed.
Lemma chunk_in : forall (l : list pcell) (v : list spec_float) x, In x (chunk l v c) -> In x v.
Proof.
  induction l as [|y l IH]; intros v x Hx; simpl in Hx; [destruct Hx|]. destruct (pcell_eqb y c);
  rewrite <- (firstn_skipn (dim y) v); apply in_or_app; auto.
Qed.
Lemma fin_chunk v : all_finite v = true -> all_finite (chunk cs v c) = true.
Proof.
  unfold all_finite. intros H. rewrite forallb_forall in *. intros x Hx. apply H. exact (chunk_in _ _ _ Hx).
Qed.
Lemma mvec_dir m g : rowsF m -> dirF Z g -> dirF Z (mvec m g).
Proof.
  intros [H1 H2] [G1 _]. split; [apply rows_mvec; [exact Nd | exact H1 | exact G1]|]. unfold mvec. now rewrite chunk_map, map_length.
Qed.
Lemma neg_rows m : rowsF m -> rowsF (mneg m).
Proof. intros [H1 H2]. split; [now apply rows_neg|]. unfold mneg. now rewrite chunk_map, map_length. Qed.
Lemma map2_len {X Y W} (f : X -> Y -> W) : forall u v, length u = length v -> length (map2 f u v) = length u.
Proof. induction u as [|x u IH]; intros [|y v] H; simpl in *; try discriminate; auto. Qed.
Lemma ger_rows a x y m : dirF Z x -> rowsF m -> rowsF (mger a x y f1 m).
Proof.
  intros [X1 X2] [H1 H2]. split; [now apply rows_ger|]. unfold mger. rewrite chunk_map2, map2_len; congruence.
Qed.
Lemma upd_rows m sv y sy : dirF Z sv -> dirF Z y -> rowsF m -> rowsF (bfgs_update m sv y sy).
Proof. intros Hs Hy Hm. unfold bfgs_update. apply ger_rows; auto. apply ger_rows; [now apply mvec_dir|]. now apply ger_rows. Qed.
Lemma ident_rows k : k = dims cs -> rowsF (mident k).
Proof.
  intros ->. split; [apply rows_ident|]. apply chunk_length; auto. unfold mident. now rewrite map_length, seq_length.
Qed.
Lemma fin_dir v : dirF Z v -> all_finite v = true -> dirF Zd v.
Proof.
  intros [H1 H2] Hf. split; auto. apply fin_chunk in Hf. unfold all_finite in Hf. rewrite forallb_forall in Hf.
  rewrite Forall_forall in *. intros x Hx. destruct (Z_fin L x (H1 x Hx) (Hf x Hx)) as [b ->]. apply Zz.
Qed.
Lemma scale_dir a v : dirF Z v -> dirF Z (vscale a v).
Proof.
  intros [H1 H2]. unfold dirF, vscale. rewrite chunk_map, map_length. split; auto. apply Forall_map_.
  eapply Forall_impl; [|exact H1]. intros x. apply Z_mul_r.
Qed.
Lemma sub_dir u v : dirF Z u -> dirF Z v -> dirF Z (vsub u v).
Proof.
  intros [H1 H2] [G1 G2]. unfold dirF, vsub. rewrite chunk_map2, map2_len by congruence. split; auto.
  eapply Forall_map2; [|exact H1|exact G1]. apply Z_sub.
Qed.
Lemma bfgs_KF P : forall f it x m b h, KF h -> atF x -> length x = dims cs -> rowsF m -> KF (fst (bfgs_loop s P f it x m b h)).
Proof.
  induction f as [|f IH]; intros it x m b h Hh Hx Lx Hm; cbn [bfgs_loop]; auto. destruct (negb _); auto. destruct (flt _ _); auto.
  unfold mbind at 1. destruct (get_gradient s h) as [h1 [g|]] eqn:Eg;
  assert (K1 : KF h1) by (eapply KF_sd; [eapply gradient_sd; eauto | auto]); auto.
  pose proof (zeros_dir g (KF_grad _ _ _ Hh Eg)) as Hg. destruct (negb _); auto. destruct (flt _ _); auto.
  destruct (negb _) eqn:Ef; auto. apply negb_false_iff in Ef. set (p := mvec (mneg m) g) in *.
  assert (Zp : dirF Z p) by (apply mvec_dir; [now apply neg_rows | auto]). pose proof (fin_dir p Zp Ef) as Hp.
  unfold mbind at 1. destruct (line_KF p g h1 Hp K1) as [K2 Al].
  destruct (line_search_wolfe s p g h1) as [h2 [[al|[|]]|]]; auto; cbn [fst snd] in *.
  - specialize (Al al eq_refl). unfold mbind at 1.
    assert (A2 : atF (vadd x (vscale al p))) by now apply at_add.
    pose proof (KF_set h2 _ K2 A2) as K3.
    destruct (set_data s (vadd x (vscale al p)) h2) as [h3 [u|]] eqn:Es; cbn [fst] in *; auto. unfold mbind.
    destruct (get_gradient s h3) as [h4 [g'|]] eqn:Eg';
    assert (K4 : KF h4) by (eapply KF_sd; [eapply gradient_sd; eauto | auto]); auto.
    pose proof (zeros_dir g' (KF_grad _ _ _ K3 Eg')) as Hg'. apply IH; auto.
    + apply set_data_inv in Es as (Ls & _). now rewrite Ls, n_dofs_dims.
    + apply upd_rows; auto; [now apply scale_dir | now apply sub_dir].
  - destruct b; auto. apply IH; auto. now apply ident_rows.
Qed.
Lemma bfgs_run_KF P : KF h0 -> KF (fst (bfgs_run s P h0)).
Proof.
  intros H0. unfold bfgs_run. assert (Ld : length (get_data h0 s) = dims cs) by (rewrite get_data_length; apply n_dofs_dims).
  apply bfgs_KF; auto; [now apply KF_data | now apply ident_rows].
Qed.
End BF.
End R.

(** ** The two solvers *)
Lemma pos_times_neg0 a : pos64 a = true -> SFmul 53 1024 a (S754_zero true) = S754_zero true.
Proof. destruct a as [| | |[] m e]; try discriminate. reflexivity. Qed.
Lemma pos_times_0 a b : pos64 a = true -> SFmul 53 1024 a (S754_zero b) = S754_zero b.
Proof. destruct a as [| | |[] m e]; try discriminate. now destruct b. Qed.
Lemma plus_neg0 x : SFadd 53 1024 x (S754_zero true) = x.
Proof. now destruct x as [[]| | |]. Qed.
Lemma plus_0 x b : same_value (SFadd 53 1024 x (S754_zero b)) x.
Proof.
  destruct x as [q| | |]; try now left. destruct q, b; try (now left); right; repeat eexists.
Qed.
Lemma same_trans x y z : same_value x y -> same_value y z -> same_value x z.
Proof.
  intros [->|(a & b & -> & ->)] [<-|(a' & b' & E & ->)]; try (now left); try discriminate.
  - right. eauto.
  - right. eauto.
  - right. eauto.
Qed.
Lemma C31_gd_lemma : forall L, let A := ArithF L in
  forall (pinv : mat spec_float -> spec_float -> pinv_res (mat spec_float)) P (h : heap spec_float) s c,
  valid h s -> registered s c -> (forall k, In k (s_cons s) -> ~ In c (deps h (getK h k))) -> Forall canonical (prim_data h c) ->
  prim_data (fst (solve pinv (GradientBased P) s h)) c = prim_data h c.
Proof.
  intros L A pinv P h s c V Hc HK Hd. apply (valid_reg _ _ _ V) in Hc.
  set (sm := fun x x0 : spec_float => x = x0 /\ canonical x0). set (Zd := fun z => z = S754_zero true).
  assert (H0 : KF L s h c sm h).
  { split; [apply frame_refl|]. assert (G : forall l, Forall canonical l -> Forall2 sm l l) by (induction 1; constructor; auto; now split).
    exact (G _ Hd). }
  assert (K : KF L s h c sm (fst (gd_run s P h))).
  { apply (gd_run_KF L s h c V Hc HK sm Zd); auto.
    - intros a x x0 z Ha [-> Hx] ->. split; auto. change (SFadd 53 1024 x0 (SFmul 53 1024 a (S754_zero true)) = x0).
      now rewrite pos_times_neg0, plus_neg0.
    - intros a x x0 z Ha [-> Hx] ->. split; auto.
      change (SFadd 53 1024 (SFmul 53 1024 a (S754_zero true)) (SFmul 53 1024 (lit64 1 0) x0) = x0).
      now rewrite pos_times_neg0, mul_one64, add_comm64, plus_neg0.
    - reflexivity. }
  destruct K as [_ K].
  assert (E : prim_data (fst (gd_run s P h)) c = prim_data h c).
  { assert (G : forall l m, Forall2 sm l m -> l = m) by (induction 1 as [|x y l m [-> _] _ IH]; congruence). exact (G _ _ K). }
  simpl. unfold mbind. destruct (gd_run s P h) as [h' [r|]]; exact E.
Qed.
Lemma C31_bfgs_lemma : forall L, let A := ArithF L in
  forall (pinv : mat spec_float -> spec_float -> pinv_res (mat spec_float)) P (h : heap spec_float) s c,
  valid h s -> registered s c -> (forall k, In k (s_cons s) -> ~ In c (deps h (getK h k))) ->
  Forall2 same_value (prim_data (fst (solve pinv (BFGS P) s h)) c) (prim_data h c).
Proof.
  intros L A pinv P h s c V Hc HK. apply (valid_reg _ _ _ V) in Hc.
  assert (H0 : KF L s h c same_value h).
  { split; [apply frame_refl|]. assert (G : forall l, Forall2 same_value l l) by (induction l; constructor; auto; now left). apply G. }
  assert (K : KF L s h c same_value (fst (bfgs_run s P h))).
  { apply (bfgs_run_KF L s h c V Hc HK same_value zero64); auto.
    - intros a x x0 z Ha Hx [b ->]. change (same_value (SFadd 53 1024 x (SFmul 53 1024 a (S754_zero b))) x0).
      rewrite pos_times_0 by auto. eapply same_trans; [apply plus_0 | exact Hx].
    - intros b. now exists b. }
  simpl. unfold mbind. destruct (bfgs_run s P h) as [h' [r|]]; exact (proj2 K).
Qed.
