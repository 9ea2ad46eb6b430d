(** * Solved sketches stay put (C30); fixed points are solved in one step (C34) *)
From Coq Require Import List ZArith NArith Arith Bool Lia Sorted Reals Lra Permutation.
From Verif Require Import Arith Vec Prim Cons Sketch Solve Api Spec SolverSpec ArithR ExactSpec
  HeapLemmas SolveLemmas WfLemmas DataLemmas SpecLemmas ExactLemmas DerivLemmas GradLemmas PureLemmas LossLemmas
  SearchLemmas StepLemmas RMat ExactRun.
Import ListNotations.

(** ** C30, Gauss-Newton and Levenberg-Marquardt *)
Definition keeps (x d : xR) : Prop := x = d \/ ffin x = false.
Lemma set_loop_keeps cs : forall v (h : heap xR), Forall2 keeps v (flat_map (prim_data h) cs) -> fst (set_data_loop cs v h) = h.
Proof.
  induction cs as [|c cs IH]; intros v h H; simpl; auto. simpl in H. apply Forall2_app_inv_r in H as (u & w & H1 & H2 & ->).
  assert (L := Forall2_length _ _ _ H1). rewrite <- L.
  rewrite firstn_app, Nat.sub_diag, firstn_all, firstn_O, app_nil_r, skipn_app, Nat.sub_diag, skipn_all, skipn_O. unfold mbind.
  cbn [app]. destruct (all_finite u) eqn:Fu.
  - assert (u = prim_data h c) as ->.
    { clear - H1 Fu. induction H1 as [|x y l l' [->|Hx] _ IH]; auto; simpl in Fu.
      - apply andb_true_iff in Fu as [_ Fu]. f_equal. auto.
      - unfold all_finite in Fu. simpl in Fu. simpl in Hx. rewrite Hx in Fu. discriminate. }
    rewrite prim_set_same by auto. now apply IH.
  - assert (X : prim_set_data c u h = (h, Panic)).
    { assert (Lu : length u = dim c) by (rewrite L; apply prim_data_dim). destruct c; simpl in *;
        unfold Point2_set_data, Arc_set_data, Circle_set_data, mbind, massert; rewrite ?Fu; auto.
      destruct u; discriminate. }
    rewrite X. reflexivity.
Qed.
Definition zn (x : xR) : Prop := x = Fin 0 \/ ffin x = false.
Lemma zn_mul x : zn (fmul x (Fin 0)).
Proof. destruct x; simpl; [left; f_equal; lra | right .. ]; auto; unfold sgn_inf; repeat destruct (Rlt_dec _ _); auto; lra. Qed.
Lemma zn_mul_l x a : zn x -> zn (fmul x a).
Proof.
  intros [->|H].
  - destruct a; simpl; [left; f_equal; lra|right..]; auto; unfold sgn_inf; repeat destruct (Rlt_dec _ _); auto; lra.
  - right. destruct x; try discriminate; destruct a; simpl; auto; unfold sgn_inf; repeat destruct (Rlt_dec _ _); auto.
Qed.
Lemma zn_add x y : zn x -> zn y -> zn (fadd x y).
Proof.
  intros [->|Hx] [->|Hy].
  - left. simpl. f_equal. lra.
  - right. destruct y; try discriminate; auto.
  - right. destruct x; try discriminate; auto.
  - right. destruct x, y; try discriminate; auto.
Qed.
Lemma zn_sum l : forall x, zn x -> List.Forall zn l -> zn (fold_left fadd l x).
Proof. induction l as [|y l IH]; intros x Hx Hl; simpl; auto. inversion Hl; subst. apply IH; auto. now apply zn_add. Qed.
Lemma zn_dot1 r v : List.Forall (fun x => x = Fin 0) v -> zn (dot1 r v).
Proof.
  intros H. unfold dot1. assert (Z : List.Forall zn (map2 fmul r v)).
  { revert v H. induction r as [|x r IH]; intros v H; [constructor|]. destruct v as [|y v]; [constructor|]. inversion H; subst.
    constructor; [apply zn_mul | now apply IH]. }
  destruct (map2 fmul r v) as [|x l]; [left; apply f0_R|]. inversion Z; subst. now apply zn_sum.
Qed.
Lemma keeps_sub x d : ffin d = true -> zn x -> keeps (fsub d x) d.
Proof.
  intros Hd [->|Hx].
  - destruct d; try discriminate. left. simpl. f_equal. lra.
  - right. destruct d; try discriminate. destruct x; try discriminate; auto.
Qed.
Lemma sd_get_losses {F} `{Arith F} (h h' : heap F) s : sdeq h h' -> get_loss_per_constraint h' s = get_loss_per_constraint h s.
Proof.
  intros S. unfold get_loss_per_constraint. apply map_ext. intros k. rewrite (struct_getK _ _ _ (proj1 S)). now apply sd_loss.
Qed.
Section N.
Variable pinv : mat xR -> xR -> pinv_res (mat xR).
Lemma nls_stay s normal ml eps step : forall k it l (h : heap xR),
  all_finite (get_data h s) = true -> List.Forall (fun x => x = Fin 0) (get_loss_per_constraint h s) ->
  sdeq h (fst (nls_loop pinv s normal ml eps step k it l h)).
Proof.
  induction k as [|k IH]; intros it l h Hf Hl; cbn [nls_loop]; [apply sd_pre|]. destruct (negb _); [apply sd_pre|].
  unfold mbind at 1. assert (S := get_jacobian_sd s h). destruct (get_jacobian s h) as [h1 [J|]]; [|exact S]. cbn [fst] in S.
  unfold nls_step. destruct (pinv _ eps) as [q| |]; [|exact S|exact S]. unfold mbind.
  set (v := vsub _ _).
  assert (D1 := sd_get_data _ _ s S). rewrite D1 in Hf || rewrite <- D1 in Hf.
  destruct (Nat.eq_dec (length v) (get_n_dofs h1 s)) as [Lv|Lv]; [|rewrite set_data_wrong_length by auto; exact S].
  assert (Kv : Forall2 keeps v (get_data h1 s)).
  { unfold v. rewrite D1.
    assert (G : forall d w, all_finite d = true -> List.Forall zn w -> length (vsub d w) = length d -> Forall2 keeps (vsub d w) d).
    { clear. induction d as [|x d IH]; intros [|y w] Hf Hw Le; simpl in *; try discriminate; [constructor..|].
      apply andb_true_iff in Hf as [F1 F2]. inversion Hw; subst. constructor; [now apply keeps_sub | apply IH; auto]. }
    apply G.
    - now rewrite <- D1.
    - unfold vmuls. apply List.Forall_map. unfold mvec. apply List.Forall_map. apply List.Forall_forall. intros r _.
      apply zn_mul_l. now apply zn_dot1.
    - fold v. rewrite Lv, get_data_length. apply n_dofs_any. }
  assert (E1 : fst (set_data s v h1) = h1).
  { unfold set_data, mbind, massert. rewrite Lv, Nat.eqb_refl. simpl. now apply set_loop_keeps. }
  destruct (set_data s v h1) as [h2 [u|]]; cbn [fst] in E1; subst h2; [|exact S].
  eapply sd_pre; [exact S|]. apply IH; auto.
  now rewrite (sd_get_losses _ _ s S).
Qed.
Lemma C30_nls_lemma sol s (h : heap xR) : valid h s -> finite_data h s -> all_con_finite h s ->
  (forall k, In k (s_cons s) -> satisfied (cfg_of h) h (getK h k)) ->
  match sol with GaussNewton _ | LevenbergMarquardt _ => True | _ => False end ->
  forall c, prim_data (fst (solve pinv sol s h)) c = prim_data h c.
Proof.
  intros V Fd CF Hs Hsol c. apply (finite_iff _ _ (valid_keys _ _ V)) in Fd.
  assert (Z : List.Forall (fun x => x = Fin 0) (get_loss_per_constraint h s)).
  { unfold get_loss_per_constraint. apply List.Forall_map. apply List.Forall_forall. intros k Hk. apply C13_zero_lemma; auto. }
  assert (G : sdeq h (fst (solve pinv sol s h))).
  { destruct sol as [P|P|P|P]; try contradiction; simpl; unfold mbind, gn_run, lm_run.
    - pose proof (nls_stay s gn_normal (gn_min_loss P) (gn_eps P) (gn_step P) (N.to_nat (gn_max P)) 0 finf h Fd Z) as X.
      destruct (nls_loop _ _ _ _ _ _ _ _ _ h) as [h' [r|]]; exact X.
    - pose proof (nls_stay s (lm_normal (lm_beta P)) (lm_min_loss P) (lm_eps P) (lm_step P) (N.to_nat (lm_max P)) 0 finf h Fd Z) as X.
      destruct (nls_loop _ _ _ _ _ _ _ _ _ h) as [h' [r|]]; exact X. }
  now apply G.
Qed.
End N.

(** ** C34 *)
Local Open Scope R_scope.
Lemma sum_perm l l' : Permutation l l' -> sumR l = sumR l'.
Proof. induction 1; simpl; lra. Qed.
Lemma dot_eq u v : length u = length v -> (forall d, length d = length u -> dotL u d = dotL v d) -> u = v.
Proof.
  intros L H. assert (Z : dotL (subL u v) (subL u v) = 0).
  { rewrite dot_sub_l by auto. rewrite H; [lra|]. apply subL_length; auto. }
  pose proof (dot_self_zero _ Z) as X. clear - L X. revert v L X. induction u as [|x u IH]; intros [|y v] L X; simpl in *; try discriminate; auto.
  f_equal; [|apply IH; auto]. specialize (X (x - y) (or_introl eq_refl)). lra.
Qed.
Definition fix_con (f : loc * (R * R)) : con xR := FixPoint (fst f) (Fin (fst (snd f))) (Fin (snd (snd f))).
Definition only_fixed_points (h : heap xR) (s : sketch) (fixes : list (loc * (R * R))) : Prop :=
  map (getK h) (s_cons s) = map fix_con fixes /\ NoDup (map fst fixes) /\
  forall c, registered s c <-> In c (map (fun f => PPoint (fst f)) fixes).
Section FX.
Variables (s : sketch) (h0 : heap xR) (fixes : list (loc * (R * R))).
Hypothesis V : valid h0 s.
Hypothesis FP : only_fixed_points h0 s fixes.
Hypothesis Fd : finite_data h0 s.
Let cs := cells s.
Definition tgt (c : pcell) : list R :=
  match c with
  | PPoint l => match find (fun f => Nat.eqb (fst f) l) fixes with Some f => [fst (snd f); snd (snd f)] | None => [0; 0] end
  | c => repeat 0 (dim c)
  end.
Definition T := flat_map tgt cs.
Definition dat (h : heap xR) := map vx (get_data h s).
Lemma tgt_dim c : length (tgt c) = dim c.
Proof. destruct c; simpl; auto; try apply repeat_length. destruct (find _ _); auto. Qed.
Lemma tgt_in f : In f fixes -> tgt (PPoint (fst f)) = [fst (snd f); snd (snd f)].
Proof.
  destruct FP as (_ & ND & _). clear - ND. simpl. unfold loc in *. induction fixes as [|x l IH]; simpl; [tauto|]. inversion ND; subst.
  intros [->|H]; [now rewrite Nat.eqb_refl|]. destruct (Nat.eqb (fst x) (fst f)) eqn:E; [|now apply IH].
  apply Nat.eqb_eq in E. exfalso. apply H1. rewrite E. now apply in_map.
Qed.
Lemma cs_perm : Permutation cs (map (fun f => PPoint (fst f)) fixes).
Proof.
  destruct FP as (_ & ND & R). apply NoDup_Permutation.
  - apply (valid_nd _ _ V).
  - rewrite <- (map_map fst PPoint). apply FinFun.Injective_map_NoDup; auto. intros a b E. now injection E.
  - intros c. rewrite <- R. symmetry. apply (valid_reg _ _ _ V).
Qed.
Lemma fix_finite : all_con_finite h0 s.
Proof.
  intros k Hk. destruct FP as (E & _ & R).
  assert (H : In (getK h0 k) (map fix_con fixes)) by (rewrite <- E; now apply in_map).
  apply in_map_iff in H as (f & <- & Hf). split; [reflexivity|]. intros d Hd.
  assert (X : d = PPoint (fst f)).
  { unfold fix_con, deps in Hd. simpl in Hd. destruct Hd as [<-|Hd]; [reflexivity|]. destruct Hd. }
  subst d. apply (finite_iff _ _ (valid_keys _ _ V)) in Fd. apply (proj1 (get_data_finite_iff s h0) Fd).
  apply (valid_reg _ _ _ V), R. apply in_map_iff; eauto.
Qed.
Lemma T_length : length T = get_n_dofs h0 s.
Proof.
  unfold T. rewrite (n_dofs_dims h0). unfold dims, cs. induction (cells s) as [|c l IH]; simpl; auto.
  rewrite app_length, tgt_dim, IH. reflexivity.
Qed.
Lemma dat_length h : length (dat h) = get_n_dofs h0 s.
Proof. unfold dat. rewrite map_length, get_data_length. apply n_dofs_any. Qed.
Definition rho (h : heap xR) (c : pcell) : list R := subL (map vx (prim_data h c)) (tgt c).
Lemma rho_dim h c : length (rho h c) = dim c.
Proof. unfold rho. rewrite subL_length; rewrite map_length, prim_data_dim; auto. now rewrite tgt_dim. Qed.
Lemma rho_flat h : subL (dat h) T = flat_map (rho h) cs.
Proof.
  unfold dat, T, get_data. fold cs. induction cs as [|c l IH]; simpl; auto. rewrite map_app. unfold subL, rho in *.
  rewrite <- IH. assert (L : length (map vx (prim_data h c)) = length (tgt c)) by (rewrite map_length, prim_data_dim, tgt_dim; auto).
  revert L. generalize (map vx (prim_data h c)) (tgt c). clear. induction l0 as [|x u IH]; intros [|y v] L; simpl in *; try discriminate; auto.
  unfold subL in *. rewrite IH; auto.
Qed.
Lemma rho_fix h f : In f fixes -> rho h (PPoint (fst f)) = [cx (cfg_of h) (fst f) - fst (snd f); cy (cfg_of h) (fst f) - snd (snd f)].
Proof. intros H. unfold rho. rewrite tgt_in; auto. Qed.
Lemma sum_fix (w : pcell -> R) : sumR (map w cs) = sumR (map (fun f => w (PPoint (fst f))) fixes).
Proof. rewrite (sum_perm _ _ (Permutation_map w cs_perm)), map_map. reflexivity. Qed.
Lemma sum_cons (w : con xR -> R) h : struct_eq h0 h -> sumR (map (fun k => w (getK h k)) (s_cons s)) = sumR (map (fun f => w (fix_con f)) fixes).
Proof.
  intros S. destruct FP as (E & _). rewrite <- (map_map (getK h) w), <- (map_map fix_con w).
  rewrite <- E. do 2 f_equal. apply map_ext. intros k. apply (struct_getK _ _ _ S).
Qed.
Lemma fix_loss h : okh s h0 h -> get_loss h s = Fin (dotL (subL (dat h) T) (subL (dat h) T) / 2).
Proof.
  intros Ho. rewrite get_loss_R by (apply (ok_fin s h0 fix_finite h Ho)). f_equal.
  rewrite (sum_cons (fun c => lossR (cfg_of h) h c) h) by apply Ho.
  rewrite rho_flat at 1. rewrite dot_cells; [|apply (valid_nd _ _ V) | | apply rho_dim].
  2:{ rewrite subL_length; rewrite dat_length; [apply n_dofs_dims | now rewrite T_length]. }
  rewrite (map_ext_in _ (fun c => dotL (rho h c) (rho h c))).
  2:{ intros c Hc. rewrite rho_flat, chunk_flat; auto. apply rho_dim. }
  rewrite sum_fix.
  assert (G : forall l, incl l fixes -> sumR (map (fun f => lossR (cfg_of h) h (fix_con f)) l) =
    sumR (map (fun f => dotL (rho h (PPoint (fst f))) (rho h (PPoint (fst f)))) l) / 2).
  { induction l as [|f l IH]; intros Hi; simpl; [lra|]. rewrite IH by (intros x Hx; apply Hi; now right).
    rewrite rho_fix by (apply Hi; now left). unfold lossR, residual2, fix_con, dotL, sq. simpl. lra. }
  now apply G.
Qed.
Lemma fix_grad h : okh s h0 h -> exists h', get_gradient s h = (h', Val (FinV (subL (dat h) T))).
Proof.
  intros Ho. assert (Vh := ok_valid s h0 V h Ho). assert (CF := ok_fin s h0 fix_finite h Ho).
  assert (G : good s h).
  { apply good_nondeg; auto. intros k Hk.
    destruct FP as (E & _). rewrite (struct_getK _ _ _ (proj1 (proj1 Ho))).
    assert (H : In (getK h0 k) (map fix_con fixes)) by (rewrite <- E; now apply in_map).
    apply in_map_iff in H as (f & <- & _). exact I. }
  destruct (gradient_ok s h (valid_nd _ _ Vh) (valid_cells _ _ Vh) G) as (h' & E & L & P). exists h'. rewrite E.
  unfold FinV. assert (Ls : length (subL (dat h) T) = get_n_dofs h s).
  { rewrite subL_length; rewrite dat_length; [apply n_dofs_any | now rewrite T_length]. }
  replace (subL (dat h) T) with (gvec s h'); [reflexivity|].
  apply dot_eq; [congruence|]. intros d Hd. rewrite L in Hd. rewrite P by auto.
  rewrite rho_flat, dot_cells; [|apply (valid_nd _ _ V) | rewrite Hd; apply n_dofs_dims | apply rho_dim].
  rewrite sum_fix, (sum_cons (fun c => pairing h (D_of (cells s) d) (fin_rows h c)) h) by apply Ho.
  f_equal. apply map_ext_in. intros f Hf. rewrite rho_fix by auto.
  assert (Hc : In (PPoint (fst f)) (cells s)).
  { apply (valid_reg _ _ _ V). destruct FP as (_ & _ & R). apply R. apply in_map_iff; eauto. }
  assert (Lc : length (chunk cs d (PPoint (fst f))) = 2%nat) by (apply chunk_length; auto; rewrite Hd; apply n_dofs_dims).
  unfold pairing, fin_rows, fix_con, D_of, pairT. cbn [cx cy cr csa cea].
  assert (Fp : all_finite (prim_data h (PPoint (fst f))) = true) by (destruct Ho as [_ Ff]; now apply (proj1 (get_data_finite_iff s h) Ff)).
  unfold cs in *. cbn [map grad_rows fst snd]. destruct (chunk (cells s) d (PPoint (fst f))) as [|dx [|dy [|]]] eqn:Ech; try discriminate.
  simpl in Fp. unfold pdata. destruct (getP h (fst f)) as [[px| | |] [py| | |] gx gy] eqn:Egp; try discriminate.
  unfold dotL. simpl. rewrite ?Ech, Egp. simpl. lra.
Qed.
Lemma sub_self u : forall v, length u = length v -> addL u (negL (subL u v)) = v.
Proof.
  induction u as [|x u IH]; intros [|y v] L; simpl in *; try discriminate; auto.
  change (x + - (x - y) :: addL u (negL (subL u v)) = y :: v). rewrite IH by lia. f_equal. lra.
Qed.
Lemma scl_one u : sclL 1 u = u.
Proof. unfold sclL. rewrite <- (map_id u) at 2. apply map_ext. intros; lra. Qed.
Lemma sub_zero u : subL u u = repeat 0 (length u).
Proof. induction u as [|x u IH]; simpl; auto. change (x - x :: subL u u = 0 :: repeat 0 (length u)). rewrite IH. f_equal. lra. Qed.
Lemma dot_zeros k : forall v, dotL (repeat 0 k) v = 0.
Proof. induction k as [|k IH]; intros [|y v]; unfold dotL in *; simpl; auto. rewrite IH. lra. Qed.
Lemma set_T h : okh s h0 h -> exists h', set_data s (FinV T) h = (h', Val tt) /\ okh s h0 h' /\ dat h' = T.
Proof.
  intros Ho. destruct (set_data_ok s (FinV T) h) as [h' E].
  { rewrite FinV_length, T_length. apply n_dofs_any. } { apply finite_FinV. }
  exists h'. split; auto. destruct (ok_set s h0 V _ _ _ (proj1 Ho) E) as [O D]. split; auto. unfold dat. rewrite D. apply map_vx_Fin.
Qed.
Lemma at_T h : okh s h0 h -> dat h = T -> get_loss h s = Fin 0 /\
  exists h', get_gradient s h = (h', Val (FinV (repeat 0 (length T)))).
Proof.
  intros Ho E. split.
  - rewrite fix_loss, E, sub_zero, dot_zeros by auto. f_equal. lra.
  - destruct (fix_grad h Ho) as (h' & Hg). exists h'. now rewrite Hg, E, sub_zero.
Qed.
Lemma sufficient q : 0 < q -> fle (Fin 0) (fadd (Fin (q / 2)) (fmul (fmul wolfe_c1 (Fin 1)) (Fin (- q)))) = true.
Proof. intros H. unfold wolfe_c1. rewrite l14_R, !mul_R, add_R. apply le_true. lra. Qed.
(** one search along the negative gradient accepts the full step *)
Lemma fix_search h : okh s h0 h -> let g := subL (dat h) T in 0 < dotL g g ->
  exists h', line_search_wolfe s (FinV (negL g)) (FinV g) h = (h', Val (LOk (Fin 1))) /\ okh s h0 h' /\ dat h' = T.
Proof.
  intros Ho g Hg. unfold line_search_wolfe. rewrite vdot_R, dot_neg_r. unfold fge. rewrite f0_R.
  rewrite (proj2 (le_false _ _)) by lra. rewrite (fix_loss h Ho), (ok_data s h0 h Ho). fold (dat h). fold g.
  change ls_max_iter with (S 14). generalize 14%nat. intros kk. cbn [ls_loop]. unfold mbind at 1. rewrite f1_R, vscale_R, vadd_R, scl_one. unfold g at 1.
  rewrite sub_self by (rewrite dat_length, T_length; auto).
  destruct (set_T h Ho) as (h1 & E & O1 & D1). rewrite E. destruct (at_T h1 O1 D1) as (-> & h2 & Eg).
  rewrite (sufficient _ Hg). unfold mbind. rewrite Eg, vdot_R, dot_zeros.
  unfold fge, wolfe_c2. rewrite l91_R, mul_R, (proj2 (le_true _ _)) by lra.
  exists h2. split; [reflexivity|]. assert (S := gradient_sd _ _ _ _ Eg). split; [now apply (ok_sd s h0 h1)|].
  unfold dat. now rewrite (sd_get_data _ _ s S).
Qed.
Lemma vnorm_zeros k : vnorm (FinV (repeat 0 k)) = Fin 0.
Proof. rewrite vnorm_R, dot_zeros, sqrt_0. reflexivity. Qed.
Lemma norm_inf_zeros k : vnorm_inf (FinV (repeat 0 k)) = Fin 0.
Proof. apply vnorm_inf_zero. unfold FinV. intros x Hx. apply in_map_iff in Hx as (r & <- & Hr). apply repeat_spec in Hr. now subst. Qed.
Lemma ok0 : okh s h0 h0.
Proof. split; [apply frame_refl|]. now apply (finite_iff _ _ (valid_keys _ _ V)). Qed.
Lemma at_targets h : dat h = T -> okh s h0 h -> forall f, In f fixes -> prim_data h (PPoint (fst f)) = [Fin (fst (snd f)); Fin (snd (snd f))].
Proof.
  intros E Ho f Hf. assert (Hc : In (PPoint (fst f)) cs).
  { apply (valid_reg _ _ _ V). destruct FP as (_ & _ & R). apply R. apply in_map_iff; eauto. }
  transitivity (FinV (tgt (PPoint (fst f)))); [|rewrite tgt_in by auto; reflexivity].
  transitivity (chunk cs (get_data h s) (PPoint (fst f))).
  { unfold get_data. rewrite chunk_flat; auto. apply prim_data_dim. }
  rewrite (ok_data s h0 h Ho). fold (dat h). rewrite E. unfold FinV, T. rewrite chunk_map, chunk_flat; auto. apply tgt_dim.
Qed.
Lemma C34_gd_lemma P : (0 < gd_max P)%N -> flt f0 (gd_min_loss P) = true \/ flt f0 (gd_min_grad P) = true ->
  exists h' n, gd_run s P h0 = (h', Val (SOk n)) /\
    ((n = 0%nat /\ forall c, prim_data h' c = prim_data h0 c) \/
     (n = 1%nat /\ forall f, In f fixes -> prim_data h' (PPoint (fst f)) = [Fin (fst (snd f)); Fin (snd (snd f))])).
Proof.
  intros Hm Ht. destruct (fix_grad h0 ok0) as (h1 & E1). unfold gd_run, mbind at 1. rewrite E1.
  assert (S1 := gradient_sd _ _ _ _ E1). assert (O1 := ok_sd s h0 _ _ S1 ok0).
  assert (D1 : dat h1 = dat h0) by (unfold dat; now rewrite (sd_get_data _ _ s S1)).
  set (g := subL (dat h0) T) in *. destruct (N.to_nat (gd_max P)) as [|k] eqn:Ek; [lia|]. cbn [gd_loop].
  destruct (flt (vnorm (FinV g)) (gd_min_grad P)) eqn:Eg.
  { exists h1, 0%nat. split; [reflexivity|]. left. split; auto. intros c. now apply S1. }
  destruct (flt (get_loss h1 s) (gd_min_loss P)) eqn:El.
  { exists h1, 0%nat. split; [reflexivity|]. left. split; auto. intros c. now apply S1. }
  assert (Pg : 0 < dotL g g).
  { destruct (Rle_lt_dec (dotL g g) 0) as [Z|]; auto. exfalso. assert (dotL g g = 0) as Z0 by (pose proof (dot_self_nonneg g); lra).
    rewrite fix_loss, D1 in El by auto. fold g in El. rewrite Z0 in El. rewrite vnorm_R, Z0, sqrt_0 in Eg.
    replace (0 / 2) with 0 in El by lra. rewrite f0_R in Ht. destruct Ht; congruence. }
  unfold mbind at 1. rewrite vneg_R. unfold g in *. rewrite <- D1 in *. destruct (fix_search h1 O1 Pg) as (h2 & -> & O2 & D2).
  unfold mbind at 1. rewrite (ok_data s h0 h1 O1). fold (dat h1). unfold f1. rewrite vaxpy_R, scl_one, sub_self by (rewrite dat_length, T_length; auto).
  destruct (set_T h2 O2) as (h3 & -> & O3 & D3). unfold mbind. destruct (at_T h3 O3 D3) as (L3 & h4 & E4). rewrite E4, L3.
  assert (S4 := gradient_sd _ _ _ _ E4). assert (O4 := ok_sd s h0 _ _ S4 O3).
  assert (D4 : dat h4 = T) by (unfold dat in *; now rewrite (sd_get_data _ _ s S4)).
  exists h4, 1%nat. split; [|right; split; auto; now apply at_targets].
  destruct k; cbn [gd_loop]; [reflexivity|]. rewrite vnorm_zeros. rewrite f0_R in Ht.
  destruct (flt (Fin 0) (gd_min_grad P)); [reflexivity|]. destruct Ht as [->|]; [reflexivity|discriminate].
Qed.
Lemma C34_bfgs_lemma P : (0 < bf_max P)%N -> flt f0 (bf_min_loss P) = true \/ flt f0 (bf_grad P) = true ->
  exists h' n, bfgs_run s P h0 = (h', Val (SOk n)) /\
    ((n = 0%N /\ forall c, prim_data h' c = prim_data h0 c) \/
     (n = 1%N /\ forall f, In f fixes -> prim_data h' (PPoint (fst f)) = [Fin (fst (snd f)); Fin (snd (snd f))])).
Proof.
  intros Hm Ht. destruct (fix_grad h0 ok0) as (h1 & E1). unfold bfgs_run.
  replace (2 * N.to_nat (bf_max P) + 2)%nat with (S (S (2 * N.to_nat (bf_max P)))) by lia.
  cbn [bfgs_loop]. rewrite (proj2 (N.ltb_lt _ _) Hm). cbn [negb].
  destruct (flt (get_loss h0 s) (bf_min_loss P)) eqn:El.
  { exists h0, 0%N. split; [reflexivity|]. left. split; auto. }
  unfold mbind at 1. rewrite E1. rewrite finite_FinV. cbn [negb].
  assert (S1 := gradient_sd _ _ _ _ E1). assert (O1 := ok_sd s h0 _ _ S1 ok0).
  assert (D1 : dat h1 = dat h0) by (unfold dat; now rewrite (sd_get_data _ _ s S1)).
  set (g := subL (dat h0) T) in *.
  destruct (flt (vnorm_inf (FinV g)) (bf_grad P)) eqn:Eg.
  { exists h1, 0%N. split; [reflexivity|]. left. split; auto. intros c. now apply S1. }
  assert (Lg : length g = length (dat h0)) by (unfold g; apply subL_length; rewrite dat_length, T_length; auto).
  assert (Pg : 0 < dotL g g).
  { destruct (Rle_lt_dec (dotL g g) 0) as [Z|]; auto. exfalso. assert (dotL g g = 0) as Z0 by (pose proof (dot_self_nonneg g); lra).
    rewrite (fix_loss h0 ok0) in El. fold g in El. rewrite Z0 in El.
    rewrite vnorm_inf_zero in Eg.
    2:{ unfold FinV. intros x Hx. apply in_map_iff in Hx as (r & <- & Hr). now rewrite (dot_self_zero g Z0 r Hr). }
    replace (0 / 2) with 0 in El by lra. rewrite f0_R in Ht. destruct Ht; congruence. }
  rewrite (ok_data s h0 h0 ok0). fold (dat h0). rewrite FinV_length, mident_R, dir_R, id_mul, finite_FinV by auto. cbn [negb].
  unfold mbind at 1. unfold g in *. rewrite <- D1 in *. destruct (fix_search h1 O1 Pg) as (h2 & -> & O2 & D2).
  unfold mbind at 1. rewrite vscale_R, vadd_R, scl_one, sub_self by (rewrite dat_length, T_length; auto).
  destruct (set_T h2 O2) as (h3 & -> & O3 & D3). unfold mbind at 1. destruct (at_T h3 O3 D3) as (L3 & h4 & E4). rewrite E4.
  assert (S4 := gradient_sd _ _ _ _ E4). assert (O4 := ok_sd s h0 _ _ S4 O3).
  assert (D4 : dat h4 = T) by (unfold dat in *; now rewrite (sd_get_data _ _ s S4)).
  destruct (at_T h4 O4 D4) as (L4 & h5 & E5).
  assert (S5 := gradient_sd _ _ _ _ E5). assert (O5 := ok_sd s h0 _ _ S5 O4).
  assert (D5 : dat h5 = T) by (unfold dat in *; now rewrite (sd_get_data _ _ s S5)).
  destruct (2 * N.to_nat (bf_max P))%nat eqn:Ef; [lia|].
  cbn [bfgs_loop]. destruct (negb (0 + 1 <? bf_max P)%N).
  { exists h4, 1%N. split; [reflexivity|]. right. split; auto. now apply at_targets. }
  rewrite L4. destruct (flt (Fin 0) (bf_min_loss P)) eqn:E0.
  { exists h4, 1%N. split; [reflexivity|]. right. split; auto. now apply at_targets. }
  unfold mbind at 1. rewrite E5, finite_FinV, norm_inf_zeros. cbn [negb]. rewrite f0_R in Ht. destruct Ht as [X|X]; [congruence|rewrite X].
  exists h5, 1%N. split; [reflexivity|]. right. split; auto. now apply at_targets.
Qed.
End FX.
Lemma fix_first_step s h0 fixes : valid h0 s -> only_fixed_points h0 s fixes -> finite_data h0 s ->
  0 < dotL (subL (dat s h0) (T s fixes)) (subL (dat s h0) (T s fixes)) ->
  exists hn d H, bfgs_steps s h0 1 0 false hn d H.
Proof.
  intros V FP Fd Pg. assert (O0 := ok0 s h0 V Fd). destruct (fix_grad s h0 fixes V FP Fd h0 O0) as (h1 & E1).
  assert (S1 := gradient_sd _ _ _ _ E1). assert (O1 := ok_sd s h0 _ _ S1 O0).
  assert (D1 : dat s h1 = dat s h0) by (unfold dat; now rewrite (sd_get_data _ _ s S1)).
  rewrite <- D1 in *. destruct (fix_search s h0 fixes V FP Fd h1 O1 Pg) as (h2 & El & O2 & _).
  destruct (set_T s h0 fixes V h2 O2) as (h3 & E3 & O3 & D3). destruct (at_T s h0 fixes V FP Fd h3 O3 D3) as (_ & h4 & E4).
  assert (Lg : length (subL (dat s h1) (T s fixes)) = get_n_dofs h0 s) by (rewrite subL_length; rewrite (dat_length s h0); auto; now rewrite T_length with (h0 := h0)).
  assert (X : mvec (mneg (mident (get_n_dofs h0 s))) (FinV (subL (dat s h1) (T s fixes))) = FinV (negL (subL (dat s h1) (T s fixes)))).
  { rewrite mident_R, dir_R, id_mul; auto. }
  do 3 eexists. eapply bfgs_accept; [apply bfgs_start | exact E1 | rewrite X; exact El | | exact E4].
  rewrite X, (ok_data s h0 h0 O0), vscale_R, vadd_R, scl_one. fold (dat s h0). rewrite <- D1.
  rewrite sub_self; [exact E3|]. rewrite (dat_length s h0), T_length with (h0 := h0); auto.
Qed.
Lemma solve_is_run_lemma {F} {A : Arith F} pinv s (h : heap F) :
  let forget (p : heap F * out (sres nat)) := (fst p, match snd p with Val r => Val (sforget r) | Panic => Panic end) in
  let forgetN (p : heap F * out (sres N)) := (fst p, match snd p with Val r => Val (sforget r) | Panic => Panic end) in
  (forall P, solve pinv (GradientBased P) s h = forget (gd_run s P h)) /\
  (forall P, solve pinv (BFGS P) s h = forgetN (bfgs_run s P h)) /\
  (forall P, solve pinv (GaussNewton P) s h = forget (gn_run pinv s P h)) /\
  (forall P, solve pinv (LevenbergMarquardt P) s h = forget (lm_run pinv s P h)).
Proof.
  cbv zeta. split; [|split; [|split]]; intros P; cbn [solve]; unfold mbind.
  - now destruct (gd_run s P h) as [h' [r|]].
  - now destruct (bfgs_run s P h) as [h' [r|]].
  - now destruct (gn_run pinv s P h) as [h' [r|]].
  - now destruct (lm_run pinv s P h) as [h' [r|]].
Qed.
Lemma C30_data_lemma {F} {A : Arith F} s (h h1 : heap F) r : get_gradient s h = (h1, r) -> forall c, prim_data h1 c = prim_data h c.
Proof. intros E c. pose proof (get_gradient_sd s h) as S. rewrite E in S. now apply S. Qed.
