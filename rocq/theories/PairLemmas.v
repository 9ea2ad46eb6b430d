(** * Sketches of separate pairs of points: proofs (C88) *)
From Coq Require Import List ZArith NArith Arith Bool Lia Reals Lra Permutation.
From Verif Require Import Arith Vec Prim Cons Sketch Solve Api Spec SolverSpec ArithR ExactSpec LinearSpec TreeSpec PairSpec
  HeapLemmas SolveLemmas WfLemmas DataLemmas SpecLemmas ExactLemmas DerivLemmas GradLemmas LossLemmas PureLemmas SearchLemmas StepLemmas
  RMat ExactRun SolverForms StayLemmas LinearLemmas TreeLemmas TreeForms.
From Verif Require TrackLemmas.
Import ListNotations.
Local Open Scope R_scope.

Lemma two_binary {F} (c : con F) : two_point c = true -> binary c = true.
Proof. destruct c; simpl; auto. Qed.
Lemma two_ends (h : heap xR) c : two_point c = true -> exists a b, mentions h c = [a; b].
Proof. destruct c; simpl; try discriminate; eauto. Qed.
Lemma two_rows g h D c a b : two_point c = true -> mentions h c = [a; b] ->
  pairing h D (rowsR g h c) = fst (force g h c) * (cx D a - cx D b) + snd (force g h c) * (cy D a - cy D b).
Proof.
  intros T M. destruct c; try discriminate T; cbn [mentions] in M; injection M as <- <-; cbn [rowsR force]; pairs; ring.
Qed.
Lemma sum_only {T} (f : T -> R) (M : T -> list nat) a k : forall l, In k l -> NoDup (flat_map M l) ->
  (forall j, ~ In a (M j) -> f j = 0) -> In a (M k) -> sumR (map f l) = f k.
Proof.
  induction l as [|j l IH]; [intros []|]. cbn [flat_map]. intros Hk N Z Ha. cbn [map sumR fold_right]. fold (sumR (map f l)).
  assert (Dis : In a (M j) -> In a (flat_map M l) -> False).
  { clear -N. induction (M j) as [|x u IH]; [intros []|]. simpl in N. inversion N as [|? ? H1 H2]; subst.
    intros [->|Hx] Hi; [apply H1, in_or_app; auto | auto]. }
  assert (N' : NoDup (flat_map M l)). { clear -N. induction (M j); auto. simpl in N. inversion N; auto. }
  destruct Hk as [->|Hk].
  - rewrite sum_zero; [ring|]. intros x Hx. apply Z. intros Hi. apply Dis; auto. apply in_flat_map. eauto.
  - rewrite IH by auto. rewrite Z; [ring|]. intros Hi. apply Dis; auto. apply in_flat_map. eauto.
Qed.
Lemma in_split_nodup {T} (M : T -> list nat) k : forall l, In k l -> NoDup (flat_map M l) -> NoDup (M k).
Proof.
  induction l as [|j l IH]; [intros []|]. cbn [flat_map]. intros [->|Hk] N.
  - clear -N. induction (M k); [constructor|]. simpl in N. inversion N; subst. constructor; auto. intros Hi. apply H1, in_or_app. auto.
  - apply IH; auto. clear -N. induction (M j); auto. simpl in N. inversion N; auto.
Qed.
Lemma len_scale a (u : R * R) : len (a * fst u, a * snd u) = Rabs a * len u.
Proof.
  unfold len, dotR. cbn [fst snd]. replace (a * fst u * (a * fst u) + a * snd u * (a * snd u)) with (a * a * (fst u * fst u + snd u * snd u)) by ring.
  rewrite sqrt_mult; [|nra|nra]. f_equal. apply sqrt_Rsqr_abs.
Qed.

Section Pairs.
Variables (h : heap xR) (s : sketch).
Hypothesis Vd : valid h s.
Hypothesis RC : refs_closed h s.
Hypothesis FD : finite_data h s.
Hypothesis CF : all_con_finite h s.
Hypothesis SP : separate_pairs h s.
Hypothesis WR : within_reach h s.
Notation cs := (cells s).
Notation g := (cfg_of h).
Lemma p_nd k : In k (s_cons s) -> nondegenerate g h (getK h k).
Proof.
  intros Hk. pose proof (proj1 SP k Hk) as T. destruct (getK h k) eqn:E; try discriminate T; cbn [nondegenerate]; auto.
  now destruct (WR k _ _ _ Hk E) as (A & _).
Qed.
Lemma p_bin k : In k (s_cons s) -> binary (getK h k) = true.
Proof. intros Hk. apply two_binary. now apply (proj1 SP). Qed.
Variables (gr : list R) (h1 : heap xR).
Hypothesis Eg : get_gradient s h = (h1, Val (map Fin gr)).
Notation D := (D_of (cells s) gr).
Lemma p_len : length gr = dims cs.
Proof. exact (proj1 (sk_grad h s Vd CF p_nd gr h1 Eg)). Qed.
Let kps := map (fun k : loc => (k, k)) (s_cons s).
Lemma p_bal p v : In (PPoint p) cs ->
  sumR (map (fun k => sgn h (getK h k) p * (fst v * fst (force g h (getK h k)) + snd v * snd (force g h (getK h k)))) (s_cons s))
  = fst v * cx D p + snd v * cy D p.
Proof.
  intros Hp. rewrite <- (balance h s Vd CF p_nd p_bin gr h1 Eg kps) by (auto; unfold kps; rewrite map_map, map_id; apply Permutation_refl).
  unfold kps. rewrite map_map. reflexivity.
Qed.
Lemma p_one k p : In k (s_cons s) -> In p (mentions h (getK h k)) ->
  cx D p = sgn h (getK h k) p * fst (force g h (getK h k)) /\ cy D p = sgn h (getK h k) p * snd (force g h (getK h k)).
Proof.
  intros Hk Hp. assert (Hc := sk_pts h s Vd RC k p Hk Hp).
  assert (Q : forall v, sgn h (getK h k) p * (fst v * fst (force g h (getK h k)) + snd v * snd (force g h (getK h k))) = fst v * cx D p + snd v * cy D p).
  { intros v. rewrite <- (p_bal p v Hc). symmetry.
    assert (Z : forall l, (forall j, In j l -> In j (s_cons s)) -> In k l -> NoDup (flat_map (fun k0 => mentions h (getK h k0)) l) ->
      sumR (map (fun j => if in_dec Nat.eq_dec p (mentions h (getK h j)) then sgn h (getK h j) p * (fst v * fst (force g h (getK h j)) + snd v * snd (force g h (getK h j))) else 0) l)
      = sgn h (getK h k) p * (fst v * fst (force g h (getK h k)) + snd v * snd (force g h (getK h k)))).
    { intros l _ Hl N. rewrite (sum_only _ (fun k0 => mentions h (getK h k0)) p k l Hl N); auto.
      - destruct (in_dec _ _ _); [reflexivity|contradiction].
      - intros j Hj. destruct (in_dec _ _ _); [contradiction|reflexivity]. }
    rewrite <- (Z (s_cons s)); [|auto|auto|apply SP]. f_equal. apply map_ext_in. intros j Hj.
    destruct (in_dec _ _ _) as [I|I]; [reflexivity|]. rewrite (sgn_out h _ p (p_bin j Hj) I). ring. }
  pose proof (Q (1, 0)) as Q1. pose proof (Q (0, 1)) as Q2. cbn [fst snd] in Q1, Q2. lra.
Qed.
Lemma p_none p : (forall k, In k (s_cons s) -> ~ In p (mentions h (getK h k))) -> cx D p = 0 /\ cy D p = 0.
Proof.
  intros N. destruct (in_dec pcell_dec (PPoint p) cs) as [I|I].
  - assert (Q : forall v, 0 = fst v * cx D p + snd v * cy D p).
    { intros v. rewrite <- (p_bal p v I). symmetry. apply sum_zero. intros k Hk. rewrite (sgn_out h _ p (p_bin k Hk) (N k Hk)). ring. }
    pose proof (Q (1, 0)) as Q1. pose proof (Q (0, 1)) as Q2. cbn [fst snd] in Q1, Q2. lra.
  - destruct (D_of_off cs gr) as [O _]. now apply O.
Qed.
Lemma p_ends k a b : In k (s_cons s) -> mentions h (getK h k) = [a; b] ->
  cx D a = fst (force g h (getK h k)) /\ cy D a = snd (force g h (getK h k)) /\
  cx D b = - fst (force g h (getK h k)) /\ cy D b = - snd (force g h (getK h k)).
Proof.
  intros Hk M. assert (N := in_split_nodup (fun k0 => mentions h (getK h k0)) k _ Hk (proj2 SP)). cbn beta in N. rewrite M in N.
  assert (Nab : a <> b). { inversion N as [|? ? H _]; subst. intros ->. apply H. now left. }
  destruct (p_one k a Hk) as [A1 A2]; [rewrite M; now left|]. destruct (p_one k b Hk) as [B1 B2]; [rewrite M; right; now left|].
  rewrite A1, A2, B1, B2. unfold sgn, ind. rewrite M. rewrite !Nat.eqb_refl.
  destruct (Nat.eqb_spec a b); [contradiction|]. destruct (Nat.eqb_spec b a); [congruence|]. repeat split; ring.
Qed.
Lemma p_half k t : In k (s_cons s) -> t = - (1 / 2) -> residual2 (shift g D t) h (getK h k) = 0 /\ nondegenerate (shift g D t) h (getK h k).
Proof.
  intros Hk ->. pose proof (proj1 SP k Hk) as T. destruct (two_ends h _ T) as (a & b & M).
  destruct (p_ends k a b Hk M) as (A1 & A2 & B1 & B2). pose proof tiny_pos as Tp.
  destruct (getK h k) eqn:E; try discriminate T; cbn [mentions] in M; injection M as <- <-; cbn [force fst snd] in *; cbn [residual2 nondegenerate].
  - destruct (WR k _ _ _ Hk E) as (W1 & W2 & W3). set (u := from_to g p2 p1) in *. set (L := len u) in *.
    assert (Eu : from_to (shift g D (- (1 / 2))) p2 p1 = (vx desired / L * fst u, vx desired / L * snd u)).
    { unfold from_to, shift. cbn [cx cy]. rewrite A1, A2, B1, B2.
      assert (U1 : fst u = cx g p1 - cx g p2) by reflexivity. assert (U2 : snd u = cy g p1 - cy g p2) by reflexivity.
      f_equal; [rewrite U1|rewrite U2]; field; lra. }
    rewrite Eu, len_scale. fold L. rewrite Rabs_pos_eq by (apply Rmult_le_pos; [lra|left; apply Rinv_0_lt_compat; lra]).
    unfold sq. replace (vx desired / L * L) with (vx desired) by (field; lra). split; [ring|lra].
  - split; auto. unfold shift, sq. cbn [cx cy]. rewrite A1, B1. field.
  - split; auto. unfold shift, sq. cbn [cx cy]. rewrite A2, B2. field.
  - split; auto. unfold dirR, from_to, shift, sq. cbn [cx cy fst snd]. rewrite A2, B2. unfold dirR, from_to. cbn [snd]. field.
  - split; auto. unfold dirR, from_to, shift, sq. cbn [cx cy fst snd]. rewrite A1, B1. unfold dirR, from_to. cbn [fst]. field.
Qed.
Lemma p_full k : In k (s_cons s) -> residual2 (shift g D (- (1))) h (getK h k) = residual2 g h (getK h k).
Proof.
  intros Hk. pose proof (proj1 SP k Hk) as T. destruct (two_ends h _ T) as (a & b & M).
  destruct (p_ends k a b Hk M) as (A1 & A2 & B1 & B2). pose proof tiny_pos as Tp.
  destruct (getK h k) eqn:E; try discriminate T; cbn [mentions] in M; injection M as <- <-; cbn [force fst snd] in *; cbn [residual2].
  - destruct (WR k _ _ _ Hk E) as (W1 & W2 & W3). set (u := from_to g p2 p1) in *. set (L := len u) in *.
    assert (Eu : from_to (shift g D (- (1))) p2 p1 = ((2 * vx desired - L) / L * fst u, (2 * vx desired - L) / L * snd u)).
    { unfold from_to, shift. cbn [cx cy]. rewrite A1, A2, B1, B2.
      assert (U1 : fst u = cx g p1 - cx g p2) by reflexivity. assert (U2 : snd u = cy g p1 - cy g p2) by reflexivity.
      f_equal; [rewrite U1|rewrite U2]; field; lra. }
    rewrite Eu, len_scale. fold L. rewrite Rabs_pos_eq by (apply Rmult_le_pos; [lra|left; apply Rinv_0_lt_compat; lra]).
    unfold sq. field. lra.
  - unfold shift, sq. cbn [cx cy]. rewrite A1, B1. ring.
  - unfold shift, sq. cbn [cx cy]. rewrite A2, B2. ring.
  - unfold dirR, from_to, shift, sq. cbn [cx cy fst snd]. rewrite A2, B2. unfold dirR, from_to. cbn [snd]. ring.
  - unfold dirR, from_to, shift, sq. cbn [cx cy fst snd]. rewrite A1, B1. unfold dirR, from_to. cbn [fst]. ring.
Qed.
(** the squared length of the gradient is four times the loss *)
Lemma p_gg l : get_loss h s = Fin l -> dotL gr gr = 4 * l.
Proof.
  intros El. rewrite (get_loss_R h s CF) in El. injection El as <-.
  destruct (gradient_ok s h (valid_nd _ _ Vd) (valid_cells _ _ Vd) (sk_good h s CF p_nd)) as (h' & E & L & P).
  rewrite Eg in E. assert (Em : map Fin gr = map Fin (gvec s h')) by congruence. apply (f_equal (map vx)) in Em. rewrite !map_vx_Fin in Em. rewrite <- Em in L, P.
  rewrite (P gr L), Rmult_comm, <- sum_scal. f_equal. apply map_ext_in. intros k Hk. pose proof (proj1 SP k Hk) as T.
  destruct (two_ends h _ T) as (a & b & M).
  destruct (fin_rows_ok h (getK h k) (CF k Hk) (nondeg_eqlen _ _ _ (p_nd k Hk))) as (_ & _ & F & _). rewrite F by (now apply nondeg_active, p_nd).
  rewrite (two_rows _ _ _ _ a b T M). destruct (p_ends k a b Hk M) as (-> & -> & -> & ->).
  unfold lossR. rewrite (force_res g h _ (p_bin k Hk) (p_nd k Hk)). unfold sq. field.
Qed.

(** ** the line search *)
Variable l : R.
Hypothesis El : get_loss h s = Fin l.
Lemma p_data : get_data h s = FinV (map vx (get_data h s)).
Proof. exact (ok_data s h h (okh_init s h Vd FD)). Qed.
Lemma p_pt a : vadd (get_data h s) (vscale (Fin a) (FinV (negL gr))) = FinV (addL (map vx (get_data h s)) (sclL a (negL gr))).
Proof. rewrite p_data at 1. now rewrite vscale_R, vadd_R. Qed.
Lemma neg_scl a : sclL a (negL gr) = sclL (- a) gr.
Proof. unfold sclL, negL. rewrite map_map. apply map_ext. intros. ring. Qed.
Lemma p_dofs : length gr = get_n_dofs h s.
Proof. rewrite n_dofs_dims. apply p_len. Qed.
Lemma p_set a hc : frame s h hc -> exists h2, set_data s (vadd (get_data h s) (vscale (Fin a) (FinV (negL gr)))) hc = (h2, Val tt) /\
  frame s h h2 /\ sdeq h2 (moved h s gr (- a)).
Proof.
  intros F. destruct (set_data_ok s (vadd (get_data h s) (vscale (Fin a) (FinV (negL gr)))) hc) as [h2 E].
  { rewrite p_pt, FinV_length, (n_dofs_any hc h), <- p_dofs. unfold addL. rewrite map2_min. unfold sclL, negL. rewrite !map_length, data_length, <- p_dofs. apply Nat.min_id. }
  { rewrite p_pt. apply finite_FinV. }
  exists h2. split; auto. assert (Vc : valid hc s) by (eapply valid_struct; [exact Vd | apply (frame_struct s); auto]).
  assert (F2 : frame s h h2) by (eapply frame_trans; [eauto | eapply set_frame; eauto]). split; auto.
  apply (at_unique h s (FinV (addL (map vx (get_data h s)) (sclL (- a) gr)))); auto.
  - apply at_frame; auto. split; auto. rewrite (C09_set_get _ _ _ _ Vc E), p_pt. now rewrite neg_scl.
  - rewrite <- map2_addL. apply moved_at; auto. apply p_dofs.
Qed.
Lemma p_moved t : cfg_of (moved h s gr t) = shift g D t /\ struct_eq h (moved h s gr t) /\ all_con_finite (moved h s gr t) s.
Proof.
  assert (N1 := valid_nd _ _ Vd). assert (N2 := valid_cells _ _ Vd). split; [now apply moved_cfg; auto using p_dofs|].
  destruct (moved_ok h s gr t N1 N2 p_dofs) as (S & _). split; auto. intros k Hk. rewrite (struct_getK _ _ _ S). apply moved_con_finite; auto using p_dofs.
Qed.
Lemma p_loss t : get_loss (moved h s gr t) s = Fin (sumR (map (fun k => lossR (shift g D t) h (getK h k)) (s_cons s))).
Proof.
  destruct (p_moved t) as (C & S & Cf). rewrite (get_loss_R _ s Cf), C. f_equal. f_equal. apply map_ext_in. intros k _.
  rewrite (struct_getK _ _ _ S). now apply struct_lossR.
Qed.
Lemma p_loss_half t : t = - (1 / 2) -> get_loss (moved h s gr t) s = Fin 0.
Proof. intros E. rewrite p_loss. f_equal. apply sum_zero. intros k Hk. unfold lossR. rewrite (proj1 (p_half k t Hk E)). field. Qed.
Lemma p_loss_full : get_loss (moved h s gr (- (1))) s = Fin l.
Proof. rewrite p_loss, <- El, (get_loss_R h s CF). f_equal. f_equal. apply map_ext_in. intros k Hk. unfold lossR. now rewrite (p_full k Hk). Qed.
Lemma p_grad_half t hx : t = - (1 / 2) -> sdeq hx (moved h s gr t) -> exists h3, get_gradient s hx = (h3, Val (FinV (repeat 0 (dims cs)))).
Proof.
  intros Et Sx. destruct (p_moved t) as (C & S & Cf).
  assert (Sh : struct_eq h hx). { apply (frame_struct s). eapply frame_trans; [|apply sd_frame_of, sd_sym, Sx]. eapply (proj1 (at_frame _ _ _ _ Vd)), moved_at; auto. apply p_dofs. }
  assert (Vx : valid hx s) by (eapply valid_struct; eauto).
  assert (Cx : cfg_of hx = shift g D t). { rewrite <- C. apply sd_cfg. now apply sd_sym. }
  assert (Cf' : all_con_finite hx s).
  { intros k Hk. rewrite (struct_getK _ _ _ Sh). apply (sd_con_finite _ _ _ (sd_sym _ _ Sx)). apply moved_con_finite; auto using p_dofs, (valid_nd _ _ Vd), (valid_cells _ _ Vd). }
  assert (Nx : forall k, In k (s_cons s) -> nondegenerate (cfg_of hx) hx (getK hx k)).
  { intros k Hk. rewrite (struct_getK _ _ _ Sh), Cx. pose proof (proj2 (p_half k t Hk Et)) as Q. pose proof (proj1 SP k Hk) as T.
    destruct (getK h k); try discriminate T; auto. }
  destruct (gradient_ok s hx (valid_nd _ _ Vx) (valid_cells _ _ Vx) (sk_good hx s Cf' Nx)) as (h3 & E & L & P).
  assert (Z : dotL (gvec s h3) (gvec s h3) = 0).
  { rewrite P by auto. apply sum_zero. intros k Hk. pose proof (proj1 SP k Hk) as T.
    destruct (fin_rows_ok hx (getK hx k) (Cf' k Hk) (nondeg_eqlen _ _ _ (Nx k Hk))) as (_ & _ & F & _). rewrite F by (now apply nondeg_active, Nx).
    rewrite (struct_getK _ _ _ Sh) in *. destruct (two_ends hx _ T) as (a & b & M). rewrite (two_rows _ _ _ _ a b T M).
    assert (R0 : residual2 (cfg_of hx) hx (getK h k) = 0).
    { pose proof (struct_lossR (shift g D t) h hx (getK h k) Sh) as Q. unfold lossR in Q. rewrite (proj1 (p_half k t Hk Et)) in Q. rewrite Cx. lra. }
    pose proof (Nx k Hk) as Nk. rewrite (struct_getK _ _ _ Sh) in Nk. rewrite (force_res _ _ _ (p_bin k Hk) Nk) in R0. unfold sq in R0.
    assert (fst (force (cfg_of hx) hx (getK h k)) = 0) by nra. assert (snd (force (cfg_of hx) hx (getK h k)) = 0) by nra. rewrite H, H0. ring. }
  assert (Zv : gvec s h3 = repeat 0 (dims cs)) by (apply TrackLemmas.zero_vec; [now rewrite L, n_dofs_dims|exact Z]).
  exists h3. now rewrite E, Zv.
Qed.
Lemma p_lpos : 0 <= l.
Proof. exact (loss_pos _ _ _ CF El). Qed.
Lemma p_search hc : sdeq h hc -> 0 < l ->
  exists h2, line_search_wolfe s (FinV (negL gr)) (FinV gr) hc = (h2, Val (LOk (Fin (1 * / 2)))) /\ frame s h h2.
Proof.
  intros Sc Pl. unfold line_search_wolfe. rewrite vdot_R, dot_neg_r, (p_gg l El). unfold fge. rewrite f0_R.
  rewrite (proj2 (le_false _ _)) by lra. rewrite (sd_get_loss _ _ s Sc), El, (sd_get_data _ _ s Sc).
  change ls_max_iter with (S (S 13)). generalize 13%nat. intros kk. cbn [ls_loop]. unfold mbind at 1. rewrite f1_R.
  destruct (p_set 1 hc (sd_frame_of s _ _ Sc)) as (h2 & E2 & F2 & S2). rewrite E2.
  rewrite <- (sd_get_loss _ _ s S2), p_loss_full. unfold wolfe_c1. rewrite l14_R, !mul_R, add_R.
  rewrite (proj2 (le_false _ _)) by lra. unfold mbind at 1. unfold fhalf. rewrite l51_R, mul_R.
  destruct (p_set (1 * / 2) h2 F2) as (h3 & E3 & F3 & S3). rewrite E3.
  assert (Et : - (1 * / 2) = - (1 / 2)) by lra.
  rewrite <- (sd_get_loss _ _ s S3), (p_loss_half _ Et), !mul_R, add_R. rewrite (proj2 (le_true _ _)) by lra.
  destruct (p_grad_half _ h3 Et S3) as (h4 & E4). unfold mbind. rewrite E4, vdot_R, dot_zeros. unfold fge, wolfe_c2. rewrite l91_R, mul_R, (proj2 (le_true _ _)) by lra.
  exists h4. split; [reflexivity|]. eapply frame_trans; [exact F3|]. apply sd_frame_of. eapply gradient_sd; eauto.
Qed.
Lemma p_settled t hx : t = - (1 / 2) -> sdeq hx (moved h s gr t) -> settled h hx s.
Proof.
  intros Et Sx. destruct (p_moved t) as (C & S & Cf).
  pose proof (proj1 (at_frame _ _ _ _ Vd) (moved_at h s gr t Vd p_dofs)) as [Fm Em].
  assert (Fx : frame s h hx) by (eapply frame_trans; [exact Fm|apply sd_frame_of, sd_sym, Sx]).
  assert (Sh := frame_struct s _ _ Fx). assert (Cx : cfg_of hx = shift g D t) by (rewrite <- C; apply sd_cfg, sd_sym, Sx).
  assert (Vx : valid hx s) by (eapply valid_struct; eauto).
  assert (Lx : get_loss hx s = Fin 0) by (rewrite <- (sd_get_loss _ _ s Sx); now apply p_loss_half).
  split; [exact Sh|]. split.
  { apply (finite_iff _ _ (valid_keys _ _ Vx)). rewrite <- (sd_get_data _ _ s Sx), Em. apply finite_FinV. }
  split; [exact Lx|]. split; [|split].
  - intros k Hk. rewrite (struct_getK _ _ _ Sh). apply lossR_zero. rewrite Cx.
    pose proof (struct_lossR (shift g D t) h hx (getK h k) Sh) as Q. unfold lossR in Q. rewrite (proj1 (p_half k t Hk Et)) in Q. unfold lossR. lra.
  - intros k a b Hk M. rewrite Cx. unfold same_middle, shift. cbn [cx cy]. destruct (p_ends k a b Hk M) as (-> & -> & -> & ->). split; ring.
  - intros p Hp. rewrite Cx. unfold shift. cbn [cx cy]. destruct (p_none p Hp) as [-> ->]. split; ring.
Qed.
Lemma p_axpy a : vaxpy (Fin a) (FinV (negL gr)) f1 (get_data h s) = vadd (get_data h s) (vscale (Fin a) (FinV (negL gr))).
Proof. unfold f1. rewrite p_data at 1. rewrite vaxpy_R, <- p_pt. reflexivity. Qed.
Lemma p_gd P : (0 < gd_max P)%N -> flt f0 (gd_min_loss P) = true \/ flt f0 (gd_min_grad P) = true ->
  exists h' n, gd_run s P h = (h', Val (SOk n)) /\
    ((n = 0%nat /\ forall c, prim_data h' c = prim_data h c) \/ (n = 1%nat /\ settled h h' s)).
Proof.
  intros Hm Ht. unfold gd_run, mbind at 1. rewrite Eg. assert (S1 := gradient_sd _ _ _ _ Eg).
  destruct (N.to_nat (gd_max P)) as [|k] eqn:Ek; [lia|]. cbn [gd_loop].
  destruct (flt (vnorm (map Fin gr)) (gd_min_grad P)) eqn:Eg1.
  { exists h1, 0%nat. split; [reflexivity|]. left. split; auto. intros c. now apply S1. }
  destruct (flt (get_loss h1 s) (gd_min_loss P)) eqn:El1.
  { exists h1, 0%nat. split; [reflexivity|]. left. split; auto. intros c. now apply S1. }
  rewrite (sd_get_loss _ _ s S1), El in El1. fold (FinV gr) in *.
  assert (Pl : 0 < l).
  { destruct p_lpos as [|Z]; auto. exfalso. rewrite vnorm_R, (p_gg l El), <- Z, Rmult_0_r, sqrt_0 in Eg1. rewrite <- Z in El1.
    rewrite f0_R in Ht. destruct Ht; congruence. }
  unfold mbind at 1. rewrite vneg_R. destruct (p_search h1 S1 Pl) as (h2 & -> & F2).
  unfold mbind at 1. rewrite (sd_get_data _ _ s S1), p_axpy. destruct (p_set (1 * / 2) h2 F2) as (h3 & -> & F3 & S3).
  assert (Et : - (1 * / 2) = - (1 / 2)) by lra. unfold mbind. destruct (p_grad_half _ h3 Et S3) as (h4 & E4). rewrite E4.
  rewrite <- (sd_get_loss _ _ s S3), (p_loss_half _ Et). assert (S4 := gradient_sd _ _ _ _ E4).
  exists h4, 1%nat. split; [|right; split; auto; apply (p_settled _ h4 Et); eapply sd_trans; [apply sd_sym, S4|exact S3]].
  destruct k; cbn [gd_loop]; [reflexivity|]. rewrite vnorm_zeros. rewrite f0_R in Ht.
  destruct (flt (Fin 0) (gd_min_grad P)); [reflexivity|]. destruct Ht as [->|]; [reflexivity|discriminate].
Qed.
Lemma p_bfgs P : (0 < bf_max P)%N -> flt f0 (bf_min_loss P) = true \/ flt f0 (bf_grad P) = true ->
  exists h' n, bfgs_run s P h = (h', Val (SOk n)) /\
    ((n = 0%N /\ forall c, prim_data h' c = prim_data h c) \/ (n = 1%N /\ settled h h' s)).
Proof.
  intros Hm Ht. unfold bfgs_run. assert (S1 := gradient_sd _ _ _ _ Eg).
  replace (2 * N.to_nat (bf_max P) + 2)%nat with (S (S (2 * N.to_nat (bf_max P)))) by lia.
  cbn [bfgs_loop]. rewrite (proj2 (N.ltb_lt _ _) Hm). cbn [negb]. rewrite El.
  destruct (flt (Fin l) (bf_min_loss P)) eqn:El1.
  { exists h, 0%N. split; [reflexivity|]. left. split; auto. }
  unfold mbind at 1. rewrite Eg. fold (FinV gr). rewrite finite_FinV. cbn [negb].
  destruct (flt (vnorm_inf (FinV gr)) (bf_grad P)) eqn:Eg1.
  { exists h1, 0%N. split; [reflexivity|]. left. split; auto. intros c. now apply S1. }
  assert (Pl : 0 < l).
  { destruct p_lpos as [|Z]; auto. exfalso. rewrite <- Z in El1.
    assert (Z0 : dotL gr gr = 0) by (rewrite (p_gg l El), <- Z; ring).
    rewrite vnorm_inf_zero in Eg1.
    2:{ unfold FinV. intros x Hx. apply in_map_iff in Hx as (r & <- & Hr). now rewrite (dot_self_zero gr Z0 r Hr). }
    rewrite f0_R in Ht. destruct Ht; congruence. }
  replace (length (get_data h s)) with (length gr) by (rewrite data_length; apply p_dofs).
  rewrite mident_R, dir_R, id_mul, finite_FinV by auto. cbn [negb].
  unfold mbind at 1. destruct (p_search h1 S1 Pl) as (h2 & -> & F2).
  unfold mbind at 1. destruct (p_set (1 * / 2) h2 F2) as (h3 & -> & F3 & S3).
  assert (Et : - (1 * / 2) = - (1 / 2)) by lra. unfold mbind at 1. destruct (p_grad_half _ h3 Et S3) as (h4 & E4). rewrite E4.
  assert (S4 := gradient_sd _ _ _ _ E4). assert (S4' : sdeq h4 (moved h s gr (- (1 * / 2)))) by (eapply sd_trans; [apply sd_sym, S4|exact S3]).
  destruct (p_grad_half _ h4 Et S4') as (h5 & E5). assert (S5 := gradient_sd _ _ _ _ E5).
  assert (S5' : sdeq h5 (moved h s gr (- (1 * / 2)))) by (eapply sd_trans; [apply sd_sym, S5|exact S4']).
  destruct (2 * N.to_nat (bf_max P))%nat eqn:Ef; [lia|].
  cbn [bfgs_loop]. destruct (negb (0 + 1 <? bf_max P)%N).
  { exists h4, 1%N. split; [reflexivity|]. right. split; auto. now apply (p_settled _ _ Et). }
  rewrite <- (sd_get_loss _ _ s S4'), (p_loss_half _ Et). destruct (flt (Fin 0) (bf_min_loss P)) eqn:E0.
  { exists h4, 1%N. split; [reflexivity|]. right. split; auto. now apply (p_settled _ _ Et). }
  unfold mbind at 1. rewrite E5. rewrite finite_FinV. cbn [negb]. rewrite norm_inf_zeros. rewrite f0_R in Ht. destruct Ht as [Ht|Ht]; [congruence|]. rewrite Ht.
  exists h5, 1%N. split; [reflexivity|]. right. split; auto. now apply (p_settled _ _ Et).
Qed.
End Pairs.

(** ** C88 *)
Section Forms.
Variables (h : heap xR) (s : sketch).
Hypothesis Vd : valid h s.
Hypothesis RC : refs_closed h s.
Hypothesis FD : finite_data h s.
Hypothesis CF : all_con_finite h s.
Hypothesis SP : separate_pairs h s.
Hypothesis WR : within_reach h s.
Lemma p_grad : exists h1 gr, get_gradient s h = (h1, Val (map Fin gr)).
Proof.
  destruct (gradient_ok s h (valid_nd _ _ Vd) (valid_cells _ _ Vd) (sk_good h s CF (p_nd h s SP WR))) as (h' & E & _). eauto.
Qed.
Lemma p_lossv : exists l, get_loss h s = Fin l.
Proof. rewrite (get_loss_R h s CF). eauto. Qed.
Lemma C88_gradient_lemma : exists h1 gr l, get_gradient s h = (h1, Val (map Fin gr)) /\ get_loss h s = Fin l /\ dotL gr gr = 4 * l.
Proof.
  destruct p_grad as (h1 & gr & Eg). destruct p_lossv as (l & El). exists h1, gr, l. split; auto. split; auto.
  apply (p_gg h s Vd RC CF SP WR gr h1 Eg l El).
Qed.
Lemma C88_gd_lemma P : (0 < gd_max P)%N -> flt f0 (gd_min_loss P) = true \/ flt f0 (gd_min_grad P) = true ->
  exists h' n, gd_run s P h = (h', Val (SOk n)) /\
    ((n = 0%nat /\ forall c, prim_data h' c = prim_data h c) \/ (n = 1%nat /\ settled h h' s)).
Proof. destruct p_grad as (h1 & gr & Eg). destruct p_lossv as (l & El). exact (p_gd h s Vd RC FD CF SP WR gr h1 Eg l El P). Qed.
Lemma C88_bfgs_lemma P : (0 < bf_max P)%N -> flt f0 (bf_min_loss P) = true \/ flt f0 (bf_grad P) = true ->
  exists h' n, bfgs_run s P h = (h', Val (SOk n)) /\
    ((n = 0%N /\ forall c, prim_data h' c = prim_data h c) \/ (n = 1%N /\ settled h h' s)).
Proof. destruct p_grad as (h1 & gr & Eg). destruct p_lossv as (l & El). exact (p_bfgs h s Vd RC FD CF SP WR gr h1 Eg l El P). Qed.
Lemma gd_stop_early P h1 gr : get_gradient s h = (h1, Val gr) -> flt (get_loss h s) (gd_min_loss P) = true -> gd_run s P h = (h1, Val (SOk 0%nat)).
Proof.
  intros Eg El. unfold gd_run, mbind. rewrite Eg, (sd_get_loss _ _ s (gradient_sd _ _ _ _ Eg)).
  destruct (N.to_nat (gd_max P)); cbn [gd_loop]; [reflexivity|]. rewrite El. now destruct (flt (vnorm gr) (gd_min_grad P)).
Qed.
Lemma C88_default_lemma l : get_loss h s = Fin l ->
  exists h' n, gd_run s gd_default h = (h', Val (SOk n)) /\
    (l < / 100000000000000 -> n = 0%nat /\ forall c, prim_data h' c = prim_data h c) /\
    (/ 100000000000000 <= l -> n = 1%nat /\ settled h h' s).
Proof.
  intros El. assert (E14 : @gd_min_loss xR gd_default = Fin (/ 100000000000000)) by (cbn; f_equal; lra).
  assert (E10 : @gd_min_grad xR gd_default = Fin (/ 10000000000)) by (cbn; f_equal; lra).
  destruct (Rlt_le_dec l (/ 100000000000000)) as [Hl|Hl].
  - destruct p_grad as (h1 & gr & Eg). exists h1, 0%nat. split; [|split; [|lra]].
    + apply (gd_stop_early gd_default h1 _ Eg). rewrite El, E14. now apply lt_true.
    + intros _. split; auto. intros c. now apply (gradient_sd _ _ _ _ Eg).
  - destruct (C88_gd_lemma gd_default) as (h' & n & E & C); [reflexivity|left; rewrite E14, f0_R; apply lt_true; lra|].
    exists h', n. split; auto. split; [lra|]. intros _. destruct C as [[-> S]|C]; [exfalso|exact C].
    destruct (C22_gd_lemma s gd_default h h' 0 Vd E) as [Q|[(g & Eg & Q)|Q]].
    + apply gd_run_spec in E as (m & hn & H1 & H2 & Em & g & Hg & H3). subst m.
      assert (Hh : hn = h) by (inversion H2; auto). subst hn. rewrite (sd_get_loss _ _ s (gradient_sd _ _ _ _ Hg)), El, E14 in Q. apply lt_true in Q. lra.
    + apply gd_run_spec in E as (m & hn & H1 & H2 & Em & g' & Hg & H3). subst m. assert (Hh : hn = h) by (inversion H2; auto). subst hn.
      assert (Eg' := gradient_again _ _ _ _ Vd Hg). rewrite Eg in Eg'. injection Eg' as ->.
      destruct C88_gradient_lemma as (h1 & gr & l' & Eg2 & El' & G). rewrite El in El'. injection El' as <-. rewrite Hg in Eg2. injection Eg2 as _ ->.
      fold (FinV gr) in Q. rewrite vnorm_R, G, E10 in Q. apply lt_true in Q.
      assert (/ 10000000000 <= sqrt (4 * l)); [|lra]. rewrite <- (sqrt_square (/ 10000000000)) by lra. apply sqrt_le_1_alt. lra.
    + vm_compute in Q. discriminate.
Qed.
End Forms.
