(** * Exact arithmetic: proofs for C13 - C16 and C18 - C20 *)
From Coq Require Import Reals List Lra Lia Bool ZArith NArith Arith FunctionalExtensionality.
From Coquelicot Require Import Coquelicot.
From Verif Require Import Arith Vec Prim Cons Sketch Solve Api Spec ArithR ExactSpec
  HeapLemmas SolveLemmas BookLemmas WfLemmas DataLemmas SpecLemmas ExactLemmas DerivLemmas GradLemmas PureLemmas.
Import ListNotations.
Local Open Scope R_scope.

Lemma valid_nd {F} `{Arith F} (h : heap F) s : valid h s -> NoDup (cells s).
Proof. intros V. apply V. Qed.
Lemma valid_cells {F} `{Arith F} (h : heap F) s : valid h s -> forall c, In c (cells s) -> cell_ok h c.
Proof. intros V c Hc. apply (v_live _ _ V). now apply (valid_reg _ _ _ V). Qed.

(** ** C13 *)
Lemma C13_zero_lemma h c : con_finite h c -> (loss_value h c = Fin 0 <-> satisfied (cfg_of h) h c).
Proof.
  intros Hf. rewrite loss_R by auto. rewrite <- lossR_zero. split; [intros E; now injection E | congruence].
Qed.
Lemma C13_formula_lemma h c : con_finite h c -> loss_value h c = Fin (residual2 (cfg_of h) h c / 2).
Proof. apply loss_R. Qed.

(** ** C14 *)
Lemma get_loss_sum {F} `{Arith F} (h : heap F) s : get_loss h s = fold_left fadd (get_loss_per_constraint h s) f0.
Proof.
  unfold get_loss, get_loss_per_constraint. generalize f0. induction (s_cons s) as [|k ks IH]; simpl; auto.
Qed.
Lemma loss_entry {F} `{Arith F} (h : heap F) s i k : nth_error (s_cons s) i = Some k ->
  nth_error (get_loss_per_constraint h s) i = Some (loss_value h (getK h k)).
Proof. intros E. unfold get_loss_per_constraint. now apply (map_nth_error (fun k => loss_value h (getK h k))). Qed.
Lemma sum_nonneg l : (forall x, In x l -> 0 <= x) -> 0 <= sumR l.
Proof. induction l as [|x l IH]; intros H; simpl; [lra|]. assert (0 <= x) by (apply H; now left). assert (0 <= sumR l) by (apply IH; intros; apply H; now right). fold (sumR l). lra. Qed.
Lemma sum_zero l : (forall x, In x l -> 0 <= x) -> (sumR l = 0 <-> forall x, In x l -> x = 0).
Proof.
  induction l as [|x l IH]; intros H; simpl; [split; [tauto|auto]|]. fold (sumR l).
  assert (0 <= x) by (apply H; now left). assert (0 <= sumR l) by (apply sum_nonneg; intros; apply H; now right).
  split.
  - intros E y [<-|Hy]; [lra|]. apply IH; auto; [intros; apply H; now right | lra].
  - intros E. rewrite (E x) by now left. rewrite (proj2 (IH (fun y Hy => H y (or_intror Hy)))); [lra|]. intros; apply E; now right.
Qed.
Lemma C14_zero_lemma h s : all_con_finite h s ->
  (get_loss h s = Fin 0 <-> forall k, In k (s_cons s) -> satisfied (cfg_of h) h (getK h k)).
Proof.
  intros Hf. rewrite get_loss_R by auto.
  assert (Hn : forall x, In x (map (fun k => lossR (cfg_of h) h (getK h k)) (s_cons s)) -> 0 <= x).
  { intros x Hx. apply in_map_iff in Hx as (k & <- & _). apply lossR_nonneg. }
  split.
  - intros E k Hk. injection E as E. apply lossR_zero. apply (proj1 (sum_zero _ Hn) E). apply in_map_iff; eauto.
  - intros Hs. f_equal. apply sum_zero; auto. intros x Hx. apply in_map_iff in Hx as (k & <- & Hk). apply lossR_zero; auto.
Qed.
Lemma C14_conflict_lemma h s i k : all_con_finite h s -> nth_error (s_cons s) i = Some k ->
  exists r, nth_error (get_loss_per_constraint h s) i = Some (Fin r) /\ 0 <= r /\
    (0 < r <-> ~ satisfied (cfg_of h) h (getK h k)).
Proof.
  intros Hf E. assert (Hk : In k (s_cons s)) by (eapply nth_error_In; eauto).
  exists (lossR (cfg_of h) h (getK h k)). rewrite (loss_entry _ _ _ _ E), loss_R by auto.
  pose proof (lossR_nonneg (cfg_of h) h (getK h k)) as P. pose proof (lossR_zero (cfg_of h) h (getK h k)) as Z.
  repeat split; auto.
  - intros L Hs. apply Z in Hs. lra.
  - intros Hs. destruct (Req_dec (lossR (cfg_of h) h (getK h k)) 0); [tauto|lra].
Qed.

(** ** C15 *)
Lemma good_nondeg h s : all_con_finite h s -> (forall k, In k (s_cons s) -> nondegenerate (cfg_of h) h (getK h k)) -> good s h.
Proof. intros H1 H2 k Hk. split; auto. apply nondeg_eqlen; auto. Qed.
Lemma C15_lemma h s : valid h s -> all_con_finite h s ->
  (forall k, In k (s_cons s) -> nondegenerate (cfg_of h) h (getK h k)) ->
  exists h' g, get_gradient s h = (h', Val (map Fin g)) /\ length g = get_n_dofs h s /\
    forall d, length d = get_n_dofs h s ->
      (forall t, snd (set_data s (map Fin (map2 (fun x y => x + t * y) (map vx (get_data h s)) d)) h) = Val tt) /\
      (forall t, ffin (get_loss (moved h s d t) s) = true) /\
      derivable_pt_lim (fun t => vx (get_loss (moved h s d t) s)) 0 (dotL g d).
Proof.
  intros V Hf Hn. pose proof (valid_nd _ _ V) as ND. pose proof (valid_cells _ _ V) as OK.
  destruct (gradient_ok s h ND OK (good_nondeg _ _ Hf Hn)) as (h' & E & L & P).
  exists h', (gvec s h'). split; auto. split; auto. intros d Hl. split; [|split].
  - intros t. destruct (moved_ok h s d t ND OK Hl) as (_ & _ & _ & x & ->). reflexivity.
  - intros t. destruct (moved_ok h s d t ND OK Hl) as (S & _).
    rewrite get_loss_R; [reflexivity|]. intros k Hk. rewrite (struct_getK _ _ _ S). apply moved_con_finite; auto.
  - apply is_derive_Reals. rewrite P by auto. apply get_loss_deriv; auto.
Qed.

(** ** C16 *)
Definition unitv (n j : nat) : list R := map (fun i => if Nat.eqb i j then 1 else 0) (seq 0 n).
Lemma dot_zeros : forall u v, (forall x, In x v -> x = 0) -> dotL u v = 0.
Proof.
  unfold dotL. induction u as [|a u IH]; intros [|b v] H; simpl; auto. fold (sumR (map2 Rmult u v)).
  rewrite IH by (intros; apply H; now right). rewrite (H b) by now left. lra.
Qed.
Lemma dot_unit_gen : forall u k j, dotL u (map (fun i => if Nat.eqb i j then 1 else 0) (seq k (length u))) =
  if Nat.leb k j then nth (j - k) u 0 else 0.
Proof.
  induction u as [|a u IH]; intros k j; simpl.
  - unfold dotL; simpl. destruct (Nat.leb k j); auto. now destruct (j - k)%nat.
  - change (a * (if Nat.eqb k j then 1 else 0) + dotL u (map (fun i => if Nat.eqb i j then 1 else 0) (seq (S k) (length u))) = if Nat.leb k j then nth (j - k) (a :: u) 0 else 0).
    rewrite IH. destruct (Nat.eqb_spec k j) as [->|E].
    + rewrite Nat.leb_refl, Nat.sub_diag. replace (Nat.leb (S j) j) with false by (symmetry; apply Nat.leb_gt; lia). simpl; lra.
    + destruct (Nat.leb_spec k j) as [Hle|Hgt].
      * replace (Nat.leb (S k) j) with true by (symmetry; apply Nat.leb_le; lia).
        replace (j - k)%nat with (S (j - S k)) by lia. simpl; lra.
      * replace (Nat.leb (S k) j) with false by (symmetry; apply Nat.leb_gt; lia). lra.
Qed.
Lemma dot_unit u n j : length u = n -> dotL u (unitv n j) = nth j u 0.
Proof. intros <-. unfold unitv. rewrite dot_unit_gen. simpl. now rewrite Nat.sub_0_r. Qed.
Lemma unitv_length n j : length (unitv n j) = n.
Proof. unfold unitv. now rewrite map_length, seq_length. Qed.

Lemma Forall2_nth_error {A B} (P : A -> B -> Prop) l m : Forall2 P l m -> forall i a b, nth_error l i = Some a -> nth_error m i = Some b -> P a b.
Proof. induction 1; intros [|i] a b; simpl; try discriminate; intros; [congruence | eauto]. Qed.
Lemma Forall2_length {A B} (P : A -> B -> Prop) l m : Forall2 P l m -> length l = length m.
Proof. induction 1; simpl; auto. Qed.

Lemma C16_lemma h s : valid h s -> all_con_finite h s ->
  (forall k, In k (s_cons s) -> nondegenerate (cfg_of h) h (getK h k)) ->
  exists h' J, get_jacobian s h = (h', Val (map (map Fin) J)) /\ length J = get_num_constraints s /\
    forall i row, nth_error J i = Some row -> length row = get_n_dofs h s /\
      forall d, length d = get_n_dofs h s ->
        derivable_pt_lim (fun t => vx (nth i (get_loss_per_constraint (moved h s d t) s) f0)) 0 (dotL row d).
Proof.
  intros V Hf Hn. pose proof (valid_nd _ _ V) as ND. pose proof (valid_cells _ _ V) as OK.
  destruct (jacobian_ok s h ND OK (good_nondeg _ _ Hf Hn) (s_cons s) (incl_refl _) h) as (h' & J & E & _ & FJ);
    [split; [apply struct_pre | intros ? ?; reflexivity]|].
  exists h', J. split; auto. split; [symmetry; apply (Forall2_length _ _ _ FJ)|].
  intros i row Hr. assert (Hi : exists k, nth_error (s_cons s) i = Some k).
  { destruct (nth_error (s_cons s) i) eqn:N; eauto. apply nth_error_None in N. rewrite (Forall2_length _ _ _ FJ) in N.
    apply nth_error_None in N. congruence. }
  destruct Hi as [k Hk]. destruct (Forall2_nth_error _ _ _ FJ i k row Hk Hr) as [L P]. split; auto.
  intros d Hl. apply is_derive_Reals. rewrite P by auto.
  assert (In k (s_cons s)) by (eapply nth_error_In; eauto).
  apply (is_derive_ext (fun t => vx (loss_value (moved h s d t) (getK h k)))); [|apply con_loss_deriv; auto].
  intros t. req. destruct (moved_ok h s d t ND OK Hl) as (S & _).
  rewrite (nth_error_nth _ _ _ (loss_entry (moved h s d t) s i k Hk)). now rewrite (struct_getK _ _ _ S).
Qed.
Definition not_zero_length (h : heap xR) (s : sketch) : Prop :=
  forall k, In k (s_cons s) -> ~ zero_length (cfg_of h) h (getK h k).
Lemma eqlen_zero_length g h c : eqlen_ok g h c <-> ~ zero_length g h c.
Proof.
  unfold zero_length. split.
  - intros H (l1 & l2 & -> & Z). simpl in H. tauto.
  - intros H. destruct c; simpl; auto. split; intros Z; apply H; eauto.
Qed.
Lemma good_iff h s : all_con_finite h s -> not_zero_length h s -> good s h.
Proof. intros H1 H2 k Hk. split; auto. apply eqlen_zero_length; auto. Qed.
Lemma C16_sum_lemma h s : valid h s -> all_con_finite h s -> not_zero_length h s ->
  exists h1 g h2 J, get_gradient s h = (h1, Val (map Fin g)) /\ get_jacobian s h = (h2, Val (map (map Fin) J)) /\
    length g = get_n_dofs h s /\ length J = get_num_constraints s /\ (forall row, In row J -> length row = get_n_dofs h s) /\
    forall j, (j < get_n_dofs h s)%nat -> nth j g 0 = sumR (map (fun row => nth j row 0) J).
Proof.
  intros V Hf Hz. pose proof (valid_nd _ _ V) as ND. pose proof (valid_cells _ _ V) as OK.
  pose proof (good_iff _ _ Hf Hz) as G.
  destruct (gradient_ok s h ND OK G) as (h1 & E1 & L1 & P1).
  destruct (jacobian_ok s h ND OK G (s_cons s) (incl_refl _) h) as (h2 & J & E2 & _ & FJ);
    [split; [apply struct_pre | intros ? ?; reflexivity]|].
  exists h1, (gvec s h1), h2, J. repeat (split; auto).
  - symmetry; apply (Forall2_length _ _ _ FJ).
  - intros row Hr. apply In_nth_error in Hr as [i Hi].
    destruct (nth_error (s_cons s) i) as [k|] eqn:N.
    + now destruct (Forall2_nth_error _ _ _ FJ i k row N Hi).
    + apply nth_error_None in N. rewrite (Forall2_length _ _ _ FJ) in N. apply nth_error_None in N. congruence.
  - intros j Hj. rewrite <- (dot_unit _ _ j L1). rewrite P1 by apply unitv_length.
    clear E1 E2 P1. induction FJ as [|k row ks J' [Lr Pr] FJ IH]; simpl; auto.
    rewrite IH. f_equal. rewrite <- Pr by apply unitv_length. now apply dot_unit.
Qed.

(** ** C18 *)
Lemma eqlen_panics h c : con_finite h c -> ~ eqlen_ok (cfg_of h) h c -> snd (update_gradient c h) = Panic.
Proof.
  intros Hf Hn. destruct c; try (exfalso; apply Hn; exact I). cbn [eqlen_ok] in Hn.
  assert (L1 := con_finite_line _ _ l1 Hf ltac:(simpl; auto)).
  assert (L2 := con_finite_line _ _ l2 Hf ltac:(simpl; auto)).
  unfold update_gradient. cbn [grad_rows]. rewrite (line_dir _ _ L1), (line_dir _ _ L2).
  set (u := dirR (cfg_of h) h l1) in *. set (v := dirR (cfg_of h) h l2) in *.
  rewrite !v2norm_R, sub_R. cbn [mfor].
  assert (B : forall w e, w = (0, 0) -> 
     all_finite (rowmul 4 (vscale (Fin e) (vdivs (v2row (F2 w)) (Fin (len w)))) end_minus_start) = false /\
     all_finite (rowmul 4 (vscale (Fin e) (vdivs (vneg (v2row (F2 w))) (Fin (len w)))) end_minus_start) = false).
  { intros w e ->. replace (len (0,0)) with 0 by (symmetry; now apply len_zero).
    unfold v2row, F2, vdivs, vscale, vneg. cbn [map fst snd]. rewrite neg_R, Ropp_0, !div0_R. split; reflexivity. }
  destruct (Classical_Prop.classic (u = (0,0))) as [Eu|Eu].
  - unfold mbind. cbn [fst snd add_to_gradient]. unfold Line_add_to_gradient, mbind, massert.
    destruct (B u (len u - len v) Eu) as [-> _]. reflexivity.
  - assert (Ev : v = (0,0)) by (destruct (Classical_Prop.classic (v = (0,0))); tauto).
    unfold mbind at 1. destruct (add_to_gradient _ _ h) as [h1 [[]|]]; [|reflexivity].
    unfold mbind. cbn [fst snd add_to_gradient]. unfold Line_add_to_gradient, mbind, massert.
    destruct (B v (len u - len v) Ev) as [_ ->]. reflexivity.
Qed.
Lemma bad_sd h h' c : sdeq h h' -> con_finite h c -> ~ eqlen_ok (cfg_of h) h c -> con_finite h' c /\ ~ eqlen_ok (cfg_of h') h' c.
Proof.
  intros Hd Hf Hn. split; [now apply (sd_con_finite h)|]. rewrite (sd_cfg _ _ Hd).
  destruct c; simpl in *; auto. unfold dirR in *. now rewrite !(sd_getL _ _ _ Hd).
Qed.
Lemma for_panics h ks k : In k ks -> con_finite h (getK h k) -> ~ eqlen_ok (cfg_of h) h (getK h k) ->
  forall h1, sdeq h h1 -> snd (mfor ks (fun k h => update_gradient (getK h k) h) h1) = Panic.
Proof.
  intros Hi Hf Hn. induction ks as [|x ks IH]; [destruct Hi|]. intros h1 Hd. simpl. unfold mbind.
  pose proof (update_sd (getK h1 x) h1) as S.
  destruct (update_gradient (getK h1 x) h1) as [h2 [[]|]] eqn:E; [|reflexivity]. simpl in S.
  destruct Hi as [->|Hi].
  - rewrite (struct_getK _ _ _ (proj1 Hd)) in E. destruct (bad_sd _ _ _ Hd Hf Hn) as [B1 B2].
    pose proof (eqlen_panics _ _ B1 B2) as P. rewrite E in P. discriminate.
  - apply IH; auto. eapply sd_pre; eauto.
Qed.
Lemma jac_panics h s ks k : In k ks -> con_finite h (getK h k) -> ~ eqlen_ok (cfg_of h) h (getK h k) ->
  forall h1, sdeq h h1 -> snd (jacobian_rows s ks h1) = Panic.
Proof.
  intros Hi Hf Hn. induction ks as [|x ks IH]; [destruct Hi|]. intros h1 Hd. simpl. unfold mbind at 1.
  assert (Z : sdeq h (zero_all s h1)) by (eapply sd_pre; [exact Hd | apply zero_all_sd]).
  pose proof (update_sd (getK (zero_all s h1) x) (zero_all s h1)) as S.
  destruct (update_gradient (getK (zero_all s h1) x) (zero_all s h1)) as [h2 [[]|]] eqn:E; [|reflexivity]. simpl in S.
  unfold mbind. destruct Hi as [->|Hi].
  - rewrite (struct_getK _ _ _ (proj1 Z)) in E. destruct (bad_sd _ _ _ Z Hf Hn) as [B1 B2].
    pose proof (eqlen_panics _ _ B1 B2) as P. rewrite E in P. discriminate.
  - assert (S2 : sdeq h h2) by (eapply sd_pre; eauto). specialize (IH Hi h2 S2).
    destruct (jacobian_rows s ks h2) as [h3 [?|]]; [discriminate|reflexivity].
Qed.
Lemma sd_refl {F} `{Arith F} (h : heap F) : sdeq h h.
Proof. split; [apply struct_pre | intros ? ?; reflexivity]. Qed.
Lemma C18_lemma h s : valid h s -> all_con_finite h s ->
  (snd (get_gradient s h) = Panic <-> exists k, In k (s_cons s) /\ zero_length (cfg_of h) h (getK h k)) /\
  (snd (get_jacobian s h) = Panic <-> exists k, In k (s_cons s) /\ zero_length (cfg_of h) h (getK h k)).
Proof.
  intros V Hf. pose proof (valid_nd _ _ V) as ND. pose proof (valid_cells _ _ V) as OK.
  assert (Dec : good s h \/ exists k, In k (s_cons s) /\ zero_length (cfg_of h) h (getK h k)).
  { destruct (Classical_Prop.classic (exists k, In k (s_cons s) /\ zero_length (cfg_of h) h (getK h k))) as [X|X]; auto.
    left. apply good_iff; auto. intros k Hk Z. apply X; eauto. }
  assert (Bad : (exists k, In k (s_cons s) /\ zero_length (cfg_of h) h (getK h k)) ->
    snd (get_gradient s h) = Panic /\ snd (get_jacobian s h) = Panic).
  { intros (k & Hk & Z). assert (N : ~ eqlen_ok (cfg_of h) h (getK h k)) by (rewrite eqlen_zero_length; auto).
    split.
    - unfold get_gradient, mbind at 1.
      pose proof (for_panics h (s_cons s) k Hk (Hf k Hk) N (zero_all s h) (zero_all_sd s h)) as P.
      destruct (mfor _ _ _) as [h1 [[]|]]; [discriminate | reflexivity].
    - apply (jac_panics h s (s_cons s) k); auto. apply sd_refl. }
  split; (split; [|intros X; now apply Bad]); intros P; (destruct Dec as [G|X]; [exfalso|exact X]).
  - destruct (gradient_ok s h ND OK G) as (h' & E & _). rewrite E in P. discriminate.
  - destruct (jacobian_ok s h ND OK G (s_cons s) (incl_refl _) h (sd_refl h)) as (h2 & J & E & _).
    unfold get_jacobian in P. rewrite E in P. discriminate.
Qed.

(** ** C19 *)
Definition flatD (D : cfg) (c : pcell) : list R :=
  match c with
  | PPoint l => [cx D l; cy D l] | PLine _ => [] | PArc a => [cr D a; csa D a; cea D a] | PCircle _ => [0]
  end.
Lemma flatD_dim D c : length (flatD D c) = dim c. Proof. destruct c; reflexivity. Qed.
Lemma flatD_length D cs : length (flat_map (flatD D) cs) = dims cs.
Proof. induction cs as [|c cs IH]; simpl; auto. rewrite app_length, IH, flatD_dim. reflexivity. Qed.
Lemma D_of_flat cs D : off0 cs D -> D_of cs (flat_map (flatD D) cs) = D.
Proof.
  intros [O1 O2]. destruct D as [a b c d e]. unfold D_of. simpl in *. f_equal; apply functional_extensionality; intros l.
  - destruct (in_dec pcell_dec (PPoint l) cs) as [Hi|Hi]; [rewrite chunk_flat; auto; apply flatD_dim | rewrite chunk_none by auto; symmetry; now apply O1].
  - destruct (in_dec pcell_dec (PPoint l) cs) as [Hi|Hi]; [rewrite chunk_flat; auto; apply flatD_dim | rewrite chunk_none by auto; symmetry; now apply O1].
  - destruct (in_dec pcell_dec (PArc l) cs) as [Hi|Hi]; [rewrite chunk_flat; auto; apply flatD_dim | rewrite chunk_none by auto; symmetry; now apply O2].
  - destruct (in_dec pcell_dec (PArc l) cs) as [Hi|Hi]; [rewrite chunk_flat; auto; apply flatD_dim | rewrite chunk_none by auto; symmetry; now apply O2].
  - destruct (in_dec pcell_dec (PArc l) cs) as [Hi|Hi]; [rewrite chunk_flat; auto; apply flatD_dim | rewrite chunk_none by auto; symmetry; now apply O2].
Qed.
Lemma dot_zero_l u v : (forall x, In x u -> x = 0) -> dotL u v = 0.
Proof.
  intros H. revert v. unfold dotL. induction u as [|a u IH]; intros [|b v]; simpl; auto. fold (sumR (map2 Rmult u v)).
  rewrite IH by (intros; apply H; now right). rewrite (H a) by now left. lra.
Qed.

(** one point / one arc radius moves *)
Definition D1 (p : loc) (v : R * R) : cfg :=
  mkCfg (fun l => if Nat.eqb l p then fst v else 0) (fun l => if Nat.eqb l p then snd v else 0)
        (fun _ => 0) (fun _ => 0) (fun _ => 0).
Definition Dr (a : loc) : cfg :=
  mkCfg (fun _ => 0) (fun _ => 0) (fun l => if Nat.eqb l a then 1 else 0) (fun _ => 0) (fun _ => 0).
Lemma D1_off cs p v : In (PPoint p) cs -> off0 cs (D1 p v).
Proof.
  intros Hi. split; intros l Hl; simpl; auto. destruct (Nat.eqb_spec l p) as [->|]; [tauto|auto].
Qed.
Lemma Dr_off cs a : In (PArc a) cs -> off0 cs (Dr a).
Proof.
  intros Hi. split; intros l Hl; simpl; auto. destruct (Nat.eqb_spec l a) as [->|]; [tauto|auto].
Qed.
Lemma sumsq_0 x y : x * x + y * y = 0 -> x = 0 /\ y = 0. Proof. intros; split; nra. Qed.

(** rows supported on two lines: if some end of the first is no end of the second, the first row is zero *)
Lemma two_lines (cs : list pcell) h l1 l2 w1 w2 :
  (forall D, off0 cs D -> pairing h D [on_line l1 w1; on_line l2 w2] = 0) ->
  In (PPoint (l_start (getL h l1))) cs -> In (PPoint (l_end (getL h l1))) cs ->
  l_start (getL h l1) <> l_end (getL h l1) -> 
  w1 = (0, 0) \/
  (l_start (getL h l1) = l_start (getL h l2) /\ l_end (getL h l1) = l_end (getL h l2)) \/
  (l_start (getL h l1) = l_end (getL h l2) /\ l_end (getL h l1) = l_start (getL h l2)).
Proof.
  intros P I1 I2 Hne.
  set (a := l_start (getL h l1)) in *. set (b := l_end (getL h l1)) in *.
  set (c := l_start (getL h l2)) in *. set (d := l_end (getL h l2)) in *.
  destruct (Nat.eq_dec a c) as [Eac|Nac]; destruct (Nat.eq_dec b d) as [Ebd|Nbd]; auto;
  destruct (Nat.eq_dec a d) as [Ead|Nad]; destruct (Nat.eq_dec b c) as [Ebc|Nbc]; auto; try congruence; left.
  all: assert (Z : (a <> c /\ a <> d) \/ (b <> c /\ b <> d)) by tauto || (exfalso; congruence).
  all: destruct Z as [[Z1 Z2]|[Z1 Z2]];
   [ specialize (P (D1 a w1) (D1_off cs a w1 I1)) | specialize (P (D1 b w1) (D1_off cs b w1 I2)) ];
   unfold pairing, pairT, on_line in P; simpl in P; fold a b c d in P;
   rewrite ?Nat.eqb_refl in P;
   repeat match type of P with context[Nat.eqb ?x ?y] => destruct (Nat.eqb_spec x y); try congruence end;
   destruct w1 as [x y]; simpl in P; destruct (sumsq_0 x y) as [-> ->]; auto; lra.
Qed.
Lemma ngrad_zero u a b : u <> (0, 0) -> (ngrad u a b = (0, 0) <-> a * snd u - b * fst u = 0).
Proof.
  intros Hu. pose proof (len_pos u Hu) as L. pose proof (len_sq u) as Q. unfold ngrad. set (n := len u) in *.
  assert (E1 : (a * (1 - fst u * fst u / (n * n)) + b * (0 - snd u * fst u / (n * n))) / n = (a * snd u - b * fst u) * snd u / (n * n * n)).
  { replace (1 - fst u * fst u / (n * n)) with (snd u * snd u / (n * n)) by (apply (Rmult_eq_reg_r (n * n)); [field_simplify; nra | nra]).
    field. lra. }
  assert (E2 : (a * (0 - fst u * snd u / (n * n)) + b * (1 - snd u * snd u / (n * n))) / n = - (a * snd u - b * fst u) * fst u / (n * n * n)).
  { replace (1 - snd u * snd u / (n * n)) with (fst u * fst u / (n * n)) by (apply (Rmult_eq_reg_r (n * n)); [field_simplify; nra | nra]).
    field. lra. }
  rewrite E1, E2. assert (C : / (n * n * n) <> 0) by (apply Rinv_neq_0_compat; repeat apply Rmult_integral_contrapositive_currified; lra).
  split.
  - intros E. injection E as F1 F2. unfold Rdiv in *.
    assert (G1 : (a * snd u - b * fst u) * snd u = 0) by (apply (Rmult_eq_reg_r (/ (n * n * n))); lra).
    assert (G2 : (a * snd u - b * fst u) * fst u = 0) by (apply (Rmult_eq_reg_r (/ (n * n * n))); lra).
    destruct (Req_dec (a * snd u - b * fst u) 0) as [|N]; auto. exfalso. apply Hu.
    destruct u as [x y]; simpl in *. f_equal; apply (Rmult_eq_reg_l (a * y - b * x)); lra.
  - intros ->. f_equal; unfold Rdiv; ring.
Qed.
Lemma on_line_zero h D l : pairT h D (on_line l (0, 0)) = 0.
Proof. unfold pairT, on_line; simpl. ring. Qed.

Lemma cross_self u : crossR u u = 0. Proof. unfold crossR; ring. Qed.
Lemma dirR_flip g h l1 l2 : l_start (getL h l1) = l_end (getL h l2) -> l_end (getL h l1) = l_start (getL h l2) ->
  dirR g h l1 = (- fst (dirR g h l2), - snd (dirR g h l2)).
Proof. intros E1 E2. unfold dirR, from_to. rewrite E1, E2. simpl. f_equal; ring. Qed.
Lemma dirR_same g h l1 l2 : l_start (getL h l1) = l_start (getL h l2) -> l_end (getL h l1) = l_end (getL h l2) ->
  dirR g h l1 = dirR g h l2.
Proof. intros E1 E2. unfold dirR. now rewrite E1, E2. Qed.
Lemma dirR_ends g h l : dirR g h l <> (0,0) -> l_start (getL h l) <> l_end (getL h l).
Proof. intros H E. apply H. unfold dirR, from_to. rewrite E. f_equal; ring. Qed.
Lemma len_neg v : len (- fst v, - snd v) = len v.
Proof. unfold len; simpl. f_equal. ring. Qed.

Lemma C19_forward h (cs : list pcell) c :
  (forall r, In r (deps h c) -> In r cs) -> con_finite h c -> eqlen_ok (cfg_of h) h c -> 
  (forall D, off0 cs D -> pairing h D (fin_rows h c) = 0) ->
  satisfied (cfg_of h) h c \/ stuck (cfg_of h) h c.
Proof.
  intros Hin Hf He P. destruct (fin_rows_ok h c Hf He) as (_ & _ & A1 & _).
  set (g := cfg_of h) in *.
  destruct (Classical_Prop.classic (stuck g h c)) as [|NS]; auto. left.
  assert (Act : active g h c \/ satisfied g h c).
  { destruct c; simpl in NS |- *; auto.
    - left. repeat split; try (apply Rnot_lt_le; tauto). tauto.
    - left. apply Rnot_lt_le; tauto.
    - destruct (Classical_Prop.classic (dirR g h l1 = (0,0))) as [E1|N1].
      { right. rewrite E1. unfold crossR; simpl; ring. }
      destruct (Classical_Prop.classic (dirR g h l2 = (0,0))) as [E2|N2]; auto.
      right. rewrite E2. unfold crossR; simpl; ring.
    - destruct (Classical_Prop.classic (dirR g h l1 = (0,0))) as [E1|N1].
      { right. rewrite E1. unfold dotR; simpl; ring. }
      destruct (Classical_Prop.classic (dirR g h l2 = (0,0))) as [E2|N2]; auto.
      right. rewrite E2. unfold dotR; simpl; ring. }
  destruct Act as [Act|]; auto. rewrite (A1 Act) in P. clear A1. clearbody g.
  destruct c; cbn [rowsR stuck satisfied active eqlen_ok] in *.
  - (* angle *)
    destruct Act as (T1 & T2 & X). pose proof tiny_pos as TP.
    destruct (Rlt_dec _ _); [lra|]. destruct (Rlt_dec _ _); [lra|].
    unfold angleR. set (u := from_to g pm p1) in *. set (v := from_to g pm p2) in *.
    assert (N1 : p1 <> p2). { intros ->. apply X. apply cross_self. }
    assert (N2 : p1 <> pm). { intros ->. unfold u, from_to, len in T1. simpl in T1. rewrite !Rminus_diag_eq in T1 by auto. replace (0*0+0*0) with 0 in T1 by ring. rewrite sqrt_0 in T1. lra. }
    set (ct := dotR u v / (len u * len v)) in *.
    set (e := (acos ct - vx desired) * (-1 / sqrt (1 - ct * ct))) in *.
    match type of P with forall D, _ -> pairing h D ((GPoint p1, [?a1; ?a2]) :: _) = 0 => set (x := a1) in *; set (y := a2) in * end.
    assert (Hxy : x = 0 /\ y = 0).
    { apply sumsq_0. specialize (P (D1 p1 (x, y)) (D1_off _ _ _ (Hin (PPoint p1) ltac:(simpl; auto)))).
      unfold pairing, pairT in P. simpl in P. rewrite Nat.eqb_refl in P.
      destruct (Nat.eqb_spec p2 p1); [congruence|]. destruct (Nat.eqb_spec pm p1); [congruence|]. lra. }
    destruct Hxy as [Hx Hy]. unfold x, y in Hx, Hy.
    assert (Lu : 0 < len u) by lra. assert (Lv : 0 < len v) by lra.
    assert (Ec : e * (crossR u v) = 0).
    { (* x*uy - y*ux = e * (vx uy - vy ux)/(|u||v|) *)
      assert (Q : (e * (1 / (len u * len v)) * fst v + e * (- dotR u v / (len u * len u * len v)) * (fst u / len u)) * snd u
                - (e * (1 / (len u * len v)) * snd v + e * (- dotR u v / (len u * len u * len v)) * (snd u / len u)) * fst u = 0) by (rewrite Hx, Hy; ring).
      assert (Q2 : - (e * crossR u v) / (len u * len v) = 0) by (rewrite <- Q; unfold crossR; field; lra).
      apply (Rmult_eq_reg_r (/ (len u * len v))); [|apply Rinv_neq_0_compat; repeat apply Rmult_integral_contrapositive_currified; lra].
      unfold Rdiv in Q2. lra. }
    apply Rmult_integral in Ec as [Ec|Ec]; [|tauto]. unfold e in Ec.
    apply Rmult_integral in Ec as [Ec|Ec]; [lra|].
    exfalso. assert (S : 0 < 1 - ct * ct).
    { unfold ct. rewrite sin2_eq by auto. apply Rdiv_lt_0_compat; [nra|]. repeat apply Rmult_lt_0_compat; lra. }
    assert (0 < sqrt (1 - ct * ct)) by (now apply sqrt_lt_R0). unfold Rdiv in Ec.
    apply Rmult_integral in Ec as [Ec|Ec]; [lra|]. assert (/ sqrt (1 - ct * ct) <> 0) by (apply Rinv_neq_0_compat; lra). tauto.
  - (* arc end *)
    set (x := fst (end_pt g h a) - cx g p) in *. set (y := snd (end_pt g h a) - cy g p) in *.
    assert (Hxy : x = 0 /\ y = 0).
    { destruct (Nat.eq_dec p (a_center (getA h a))) as [Ep|Np].
      - specialize (P (Dr a) (Dr_off _ _ (Hin (PArc a) ltac:(simpl; auto)))).
        unfold pairing, pairT in P. simpl in P. rewrite Nat.eqb_refl in P.
        unfold x, y, end_pt in *. simpl in *. rewrite Ep in *.
        pose proof (sin2_cos2 (cea g a)) as SC. unfold Rsqr in SC.
        set (C := cos (cea g a)) in *. set (S := sin (cea g a)) in *. set (r := cr g a) in *.
        assert (X : r * (S * S + C * C) = 0) by (rewrite <- P; ring).
        assert (R0 : r = 0) by (rewrite SC in X; lra). rewrite R0. split; ring.
      - apply sumsq_0. specialize (P (D1 p (-x, -y)) (D1_off _ _ _ (Hin (PPoint p) ltac:(simpl; auto)))).
        unfold pairing, pairT in P. simpl in P. rewrite Nat.eqb_refl in P.
        destruct (Nat.eqb_spec (a_center (getA h a)) p); [congruence|]. lra. }
    destruct Hxy. rewrite (surjective_pairing (end_pt g h a)). f_equal; unfold x, y in *; lra.
  - (* arc start *)
    set (x := fst (start_pt g h a) - cx g p) in *. set (y := snd (start_pt g h a) - cy g p) in *.
    assert (Hxy : x = 0 /\ y = 0).
    { destruct (Nat.eq_dec p (a_center (getA h a))) as [Ep|Np].
      - specialize (P (Dr a) (Dr_off _ _ (Hin (PArc a) ltac:(simpl; auto)))).
        unfold pairing, pairT in P. simpl in P. rewrite Nat.eqb_refl in P.
        unfold x, y, start_pt in *. simpl in *. rewrite Ep in *.
        pose proof (sin2_cos2 (csa g a)) as SC. unfold Rsqr in SC.
        set (C := cos (csa g a)) in *. set (S := sin (csa g a)) in *. set (r := cr g a) in *.
        assert (X : r * (S * S + C * C) = 0) by (rewrite <- P; ring).
        assert (R0 : r = 0) by (rewrite SC in X; lra). rewrite R0. split; ring.
      - apply sumsq_0. specialize (P (D1 p (-x, -y)) (D1_off _ _ _ (Hin (PPoint p) ltac:(simpl; auto)))).
        unfold pairing, pairT in P. simpl in P. rewrite Nat.eqb_refl in P.
        destruct (Nat.eqb_spec (a_center (getA h a)) p); [congruence|]. lra. }
    destruct Hxy. rewrite (surjective_pairing (start_pt g h a)). f_equal; unfold x, y in *; lra.
  - (* euclid *)
    set (u := from_to g p2 p1) in *. pose proof tiny_pos as TP. assert (Lu : 0 < len u) by lra.
    assert (N1 : p1 <> p2). { intros ->. unfold u, from_to, len in Act. rewrite !Rminus_diag_eq in Act by auto. simpl in Act. replace (0*0+0*0) with 0 in Act by ring. rewrite sqrt_0 in Act. lra. }
    set (x := (len u - vx desired) * (fst u / len u)) in *. set (y := (len u - vx desired) * (snd u / len u)) in *.
    assert (Hxy : x = 0 /\ y = 0).
    { apply sumsq_0. specialize (P (D1 p1 (x, y)) (D1_off _ _ _ (Hin (PPoint p1) ltac:(simpl; auto)))).
      unfold pairing, pairT in P. simpl in P. rewrite Nat.eqb_refl in P.
      destruct (Nat.eqb_spec p2 p1); [congruence|]. lra. }
    destruct Hxy as [Hx Hy]. assert (Q : (len u - vx desired) * len u = x * fst u + y * snd u).
    { unfold x, y. replace ((len u - vx desired) * (fst u / len u) * fst u + (len u - vx desired) * (snd u / len u) * snd u)
        with ((len u - vx desired) * ((fst u * fst u + snd u * snd u) / len u)) by (field; lra).
      rewrite <- len_sq. field. lra. }
    rewrite Hx, Hy in Q. assert (len u - vx desired = 0) by (apply (Rmult_eq_reg_r (len u)); lra). lra.
  - specialize (P (D1 p2 (1, 0)) (D1_off _ _ _ (Hin (PPoint p2) ltac:(simpl; auto)))).
    unfold pairing, pairT in P. simpl in P. rewrite Nat.eqb_refl in P. destruct (Nat.eqb_spec p1 p2); [tauto|]. lra.
  - specialize (P (D1 p2 (0, 1)) (D1_off _ _ _ (Hin (PPoint p2) ltac:(simpl; auto)))).
    unfold pairing, pairT in P. simpl in P. rewrite Nat.eqb_refl in P. destruct (Nat.eqb_spec p1 p2); [tauto|]. lra.
  - assert (cx g p - vx dx = 0 /\ cy g p - vx dy = 0); [|lra]. apply sumsq_0.
    specialize (P (D1 p (cx g p - vx dx, cy g p - vx dy)) (D1_off _ _ _ (Hin (PPoint p) ltac:(simpl; auto)))).
    unfold pairing, pairT in P. simpl in P. rewrite Nat.eqb_refl in P. lra.
  - (* equal length *)
    destruct He as [N1 N2]. pose proof (len_pos _ N1) as L1. pose proof (len_pos _ N2) as L2.
    destruct (two_lines cs h l1 l2 _ _ P) as [Z|[[E1 E2]|[E1 E2]]].
    + apply Hin. unfold deps. simpl. auto.
    + apply Hin. unfold deps. simpl. auto.
    + now apply (dirR_ends g).
    + pose proof (f_equal fst Z) as Z1. pose proof (f_equal snd Z) as Z2. cbn [fst snd] in Z1, Z2.
      set (u := dirR g h l1) in *. set (v := dirR g h l2) in *. clear P Z.
      assert (Q : (len u - len v) * len u = 0); [|apply Rmult_integral in Q as [Q|Q]; lra].
      transitivity ((len u - len v) * (fst u / len u) * fst u + (len u - len v) * (snd u / len u) * snd u); [|rewrite Z1, Z2; ring].
      replace ((len u - len v) * (fst u / len u) * fst u + (len u - len v) * (snd u / len u) * snd u)
        with ((len u - len v) * ((fst u * fst u + snd u * snd u) / len u)) by (field; lra).
      rewrite <- len_sq. field. lra.
    + now rewrite (dirR_same g h l1 l2).
    + rewrite (dirR_flip g h l1 l2) by auto. apply len_neg.
  - (* horizontal line *)
    destruct (Nat.eq_dec (l_start (getL h l)) (l_end (getL h l))) as [E|N]; [now rewrite E|].
    specialize (P (D1 (l_end (getL h l)) (0, 1)) (D1_off _ _ _ (Hin (PPoint (l_end (getL h l))) ltac:(unfold deps; simpl; auto)))).
    unfold pairing, pairT in P. simpl in P. rewrite Nat.eqb_refl in P. destruct (Nat.eqb_spec (l_start (getL h l)) (l_end (getL h l))); [tauto|]. lra.
  - destruct (Nat.eq_dec (l_start (getL h l)) (l_end (getL h l))) as [E|N]; [now rewrite E|].
    specialize (P (D1 (l_end (getL h l)) (1, 0)) (D1_off _ _ _ (Hin (PPoint (l_end (getL h l))) ltac:(unfold deps; simpl; auto)))).
    unfold pairing, pairT in P. simpl in P. rewrite Nat.eqb_refl in P. destruct (Nat.eqb_spec (l_start (getL h l)) (l_end (getL h l))); [tauto|]. lra.
  - (* parallel *)
    destruct Act as [N1 N2]. pose proof (len_pos _ N1) as L1. pose proof (len_pos _ N2) as L2.
    destruct (two_lines cs h l1 l2 _ _ P) as [Z|[[E1 E2]|[E1 E2]]].
    + apply Hin. unfold deps. simpl. auto.
    + apply Hin. unfold deps. simpl. auto.
    + now apply (dirR_ends g).
    + apply ngrad_zero in Z; auto. set (u := dirR g h l1) in *. set (v := dirR g h l2) in *.
      assert (Q : crossR u v * dotR u v = 0); [|apply Rmult_integral in Q as [Q|Q]; tauto].
      transitivity ((crossR u v / (len u * len v) * (snd v / len v) * snd u - crossR u v / (len u * len v) * - (fst v / len v) * fst u) * (len u * len v * len v)); [|rewrite Z; ring].
      unfold dotR. field. lra.
    + rewrite (dirR_same g h l1 l2) by auto. apply cross_self.
    + rewrite (dirR_flip g h l1 l2) by auto. unfold crossR; simpl; ring.
  - (* perpendicular *)
    destruct Act as [N1 N2]. pose proof (len_pos _ N1) as L1. pose proof (len_pos _ N2) as L2.
    destruct (two_lines cs h l1 l2 _ _ P) as [Z|[[E1 E2]|[E1 E2]]].
    + apply Hin. unfold deps. simpl. auto.
    + apply Hin. unfold deps. simpl. auto.
    + now apply (dirR_ends g).
    + apply ngrad_zero in Z; auto. set (u := dirR g h l1) in *. set (v := dirR g h l2) in *.
      assert (Q : dotR u v * crossR u v = 0); [|apply Rmult_integral in Q as [Q|Q]; tauto].
      transitivity (- (dotR u v / (len u * len v) * (fst v / len v) * snd u - dotR u v / (len u * len v) * (snd v / len v) * fst u) * (len u * len v * len v)); [|rewrite Z; ring].
      unfold crossR. field. lra.
    + exfalso. apply NS. rewrite (dirR_same g h l1 l2) by auto. apply cross_self.
    + exfalso. apply NS. rewrite (dirR_flip g h l1 l2) by auto. unfold crossR; simpl; ring.
Qed.

Lemma pairT_zero h D t r : (forall x, In x r -> x = 0) -> pairT h D (t, r) = 0.
Proof.
  intros H. assert (N : forall i, nth i r 0 = 0).
  { intros i. destruct (nth_in_or_default i r 0) as [Hi|Hi]; auto. }
  unfold pairT; cbn [fst snd]; destruct t; rewrite !N; ring.
Qed.
Lemma pairing_zero h D rows : (forall t r x, In (t, r) rows -> In x r -> x = 0) -> pairing h D rows = 0.
Proof.
  intros H. unfold pairing. induction rows as [|[t r] rows IH]; simpl; auto.
  rewrite IH by (intros; eapply H; [right|]; eauto). rewrite pairT_zero; [lra|]. intros; eapply H; [left; reflexivity | auto].
Qed.
Ltac allz := repeat (split || intros ? [<-|?] || intros [<-|?]); try ring.
Lemma C19_backward h c D : con_finite h c -> eqlen_ok (cfg_of h) h c ->
  satisfied (cfg_of h) h c \/ stuck (cfg_of h) h c -> pairing h D (fin_rows h c) = 0.
Proof.
  intros Hf He S. destruct (fin_rows_ok h c Hf He) as (_ & _ & A1 & A2). set (g := cfg_of h) in *.
  destruct (Classical_Prop.classic (active g h c)) as [Act|NA]; [rewrite (A1 Act) | rewrite (A2 NA); reflexivity].
  clear A1 A2. destruct c; cbn [rowsR stuck satisfied active eqlen_ok] in *.
  - destruct Act as (T1 & T2 & X). destruct (Rlt_dec _ _); [lra|]. destruct (Rlt_dec _ _); [lra|].
    destruct S as [S|[S|[S|S]]]; try lra. apply pairing_zero. unfold angleR in S. rewrite S.
    intros t r x Hi Hx. unfold Rminus in *. rewrite Rplus_opp_r in Hi.
    simpl in Hi. destruct Hi as [E|[E|[E|[]]]]; injection E as <- <-; destruct Hx as [<-|[<-|[]]]; ring.
  - destruct S as [S|[]]. rewrite S. simpl. rewrite !Rminus_diag_eq by auto.
    apply pairing_zero. intros t r x Hi Hx. simpl in Hi. destruct Hi as [E|[E|[]]]; injection E as <- <-; simpl in Hx; intuition; subst; ring.
  - destruct S as [S|[]]. rewrite S. simpl. rewrite !Rminus_diag_eq by auto.
    apply pairing_zero. intros t r x Hi Hx. simpl in Hi. destruct Hi as [E|[E|[]]]; injection E as <- <-; simpl in Hx; intuition; subst; ring.
  - destruct S as [S|S]; [|lra]. rewrite S. rewrite (Rminus_diag_eq (vx desired)) by auto.
    apply pairing_zero. intros t r x Hi Hx. simpl in Hi. destruct Hi as [E|[E|[]]]; injection E as <- <-; simpl in Hx; intuition; subst; ring.
  - destruct S as [S| ->].
    + rewrite S, Rminus_diag_eq by auto. apply pairing_zero. intros t r x Hi Hx. simpl in Hi. destruct Hi as [E|[E|[]]]; injection E as <- <-; simpl in Hx; intuition; subst; ring.
    + unfold pairing, pairT; simpl. ring.
  - destruct S as [S| ->].
    + rewrite S, Rminus_diag_eq by auto. apply pairing_zero. intros t r x Hi Hx. simpl in Hi. destruct Hi as [E|[E|[]]]; injection E as <- <-; simpl in Hx; intuition; subst; ring.
    + unfold pairing, pairT; simpl. ring.
  - destruct S as [[S1 S2]|[]]. rewrite S1, S2, !Rminus_diag_eq by auto. unfold pairing, pairT; simpl; ring.
  - destruct S as [S|[]]. rewrite S, Rminus_diag_eq by auto. unfold pairing, pairT, on_line; simpl; ring.
  - destruct S as [S|[]]. unfold dirR, from_to; cbn [snd]. rewrite S, Rminus_diag_eq by auto. unfold pairing, pairT; simpl; ring.
  - destruct S as [S|[]]. unfold dirR, from_to; cbn [fst]. rewrite S, Rminus_diag_eq by auto. unfold pairing, pairT; simpl; ring.
  - destruct Act as [N1 N2]. pose proof (len_pos _ N1) as L1. pose proof (len_pos _ N2) as L2.
    set (u := dirR g h l1) in *. set (v := dirR g h l2) in *.
    assert (Z1 : ngrad u (crossR u v / (len u * len v) * (snd v / len v)) (crossR u v / (len u * len v) * - (fst v / len v)) = (0, 0)).
    { apply ngrad_zero; auto. transitivity (crossR u v * dotR u v / (len u * len v * len v)); [unfold dotR; field; lra|].
      destruct S as [-> | ->]; unfold Rdiv; ring. }
    assert (Z2 : ngrad v (crossR u v / (len u * len v) * - (snd u / len u)) (crossR u v / (len u * len v) * (fst u / len u)) = (0, 0)).
    { apply ngrad_zero; auto. transitivity (- crossR u v * dotR u v / (len u * len v * len u)); [unfold dotR; field; lra|].
      destruct S as [-> | ->]; unfold Rdiv; ring. }
    rewrite Z1, Z2. unfold pairing; cbn [map sumR fold_right]. rewrite !on_line_zero. ring.
  - destruct Act as [N1 N2]. pose proof (len_pos _ N1) as L1. pose proof (len_pos _ N2) as L2.
    set (u := dirR g h l1) in *. set (v := dirR g h l2) in *.
    assert (Z1 : ngrad u (dotR u v / (len u * len v) * (fst v / len v)) (dotR u v / (len u * len v) * (snd v / len v)) = (0, 0)).
    { apply ngrad_zero; auto. transitivity (- dotR u v * crossR u v / (len u * len v * len v)); [unfold crossR; field; lra|].
      destruct S as [-> | ->]; unfold Rdiv; ring. }
    assert (Z2 : ngrad v (dotR u v / (len u * len v) * (fst u / len u)) (dotR u v / (len u * len v) * (snd u / len u)) = (0, 0)).
    { apply ngrad_zero; auto. transitivity (dotR u v * crossR u v / (len u * len v * len u)); [unfold crossR; field; lra|].
      destruct S as [-> | ->]; unfold Rdiv; ring. }
    rewrite Z1, Z2. unfold pairing; cbn [map sumR fold_right]. rewrite !on_line_zero. ring.
Qed.
Lemma deps_reg h s k : valid h s -> refs_closed h s -> In k (s_cons s) ->
  forall r, In r (deps h (getK h k)) -> In r (cells s).
Proof.
  intros V [C1 C2] Hk r Hr. apply (valid_reg _ _ _ V). unfold deps in Hr. apply in_flat_map in Hr as (x & Hx & Hr).
  pose proof (C2 k x Hk Hx) as Rx. destruct Hr as [<-|Hr]; eauto.
Qed.
Lemma C19_lemma h s k : valid h s -> refs_closed h s -> all_con_finite h s -> s_cons s = [k] ->
  ~ zero_length (cfg_of h) h (getK h k) ->
  exists h' g, get_gradient s h = (h', Val (map Fin g)) /\
    ((forall x, In x g -> x = 0) <-> satisfied (cfg_of h) h (getK h k) \/ stuck (cfg_of h) h (getK h k)).
Proof.
  intros V RC Hf Hk Hz. pose proof (valid_nd _ _ V) as ND. pose proof (valid_cells _ _ V) as OK.
  assert (G : good s h). { apply good_iff; auto. intros k' Hk'. rewrite Hk in Hk'. destruct Hk' as [<-|[]]. auto. }
  assert (Ik : In k (s_cons s)) by (rewrite Hk; now left). destruct (G k Ik) as [G1 G2].
  destruct (gradient_ok s h ND OK G) as (h' & E & L & P). exists h', (gvec s h'). split; auto.
  assert (P' : forall d, length d = get_n_dofs h s -> dotL (gvec s h') d = pairing h (D_of (cells s) d) (fin_rows h (getK h k))).
  { intros d Hd. rewrite P by auto. rewrite Hk. simpl. ring. }
  split.
  - intros Z. apply (C19_forward h (cells s)); auto; [now apply deps_reg|].
    intros D HD. rewrite <- (D_of_flat (cells s) D HD). rewrite <- P' by (rewrite flatD_length; symmetry; apply n_dofs_dims).
    now apply dot_zero_l.
  - intros S x Hx. apply In_nth with (d := 0) in Hx as (j & Hj & <-).
    rewrite <- (dot_unit _ _ j L). rewrite P' by apply unitv_length. now apply C19_backward.
Qed.

(** ** C20 *)
Definition fin_in (W : pcell -> Prop) (h : heap xR) d := W d /\ all_finite (prim_data h d) = true.
Definition line_fin_in (W : pcell -> Prop) (h : heap xR) l :=
  fin_in W h (PPoint (l_start (getL h l))) /\ fin_in W h (PPoint (l_end (getL h l))).
Lemma fin_in_pt h c d : con_finite h c -> In d (deps h c) -> fin_in (fun d => In d (deps h c)) h d.
Proof. intros [_ H] Hi; split; auto. Qed.
Lemma fin_in_line h c l : con_finite h c -> In (PLine l) (con_refs c) -> line_fin_in (fun d => In d (deps h c)) h l.
Proof.
  intros Hc Hi. split; apply fin_in_pt; auto; unfold deps; apply in_flat_map; exists (PLine l); simpl; auto.
Qed.
Lemma rigid_pt phi tx ty (W : pcell -> Prop) h h' l : rigid phi tx ty W h h' -> fin_in W h (PPoint l) ->
  cx (cfg_of h') l = cx (cfg_of h) l * cos phi - cy (cfg_of h) l * sin phi + tx /\
  cy (cfg_of h') l = cx (cfg_of h) l * sin phi + cy (cfg_of h) l * cos phi + ty /\
  all_finite (prim_data h' (PPoint l)) = true.
Proof.
  intros (_ & H & _) [Hw Hf]. apply all_finite_inv in Hf. simpl in Hf. specialize (H l _ _ Hw Hf).
  rewrite H. simpl in H. injection H as E1 E2. simpl. rewrite E1, E2. auto.
Qed.
Lemma rigid_arc phi tx ty (W : pcell -> Prop) h h' a : rigid phi tx ty W h h' -> fin_in W h (PArc a) ->
  cr (cfg_of h') a = cr (cfg_of h) a /\ csa (cfg_of h') a = csa (cfg_of h) a + phi /\ cea (cfg_of h') a = cea (cfg_of h) a + phi /\
  all_finite (prim_data h' (PArc a)) = true.
Proof.
  intros (_ & _ & H) [Hw Hf]. apply all_finite_inv in Hf. simpl in Hf. specialize (H a _ _ _ Hw Hf).
  rewrite H. simpl in H. injection H as E1 E2 E3. simpl. rewrite E1, E2, E3. auto.
Qed.
Definition rot (phi : R) (v : R * R) : R * R := (fst v * cos phi - snd v * sin phi, fst v * sin phi + snd v * cos phi).
Lemma rot_dot phi u v : dotR (rot phi u) (rot phi v) = dotR u v.
Proof. unfold dotR, rot; simpl. pose proof (sin2_cos2 phi) as S. unfold Rsqr in S.
  transitivity ((fst u * fst v + snd u * snd v) * (sin phi * sin phi + cos phi * cos phi)); [ring | rewrite S; ring]. Qed.
Lemma rot_cross phi u v : crossR (rot phi u) (rot phi v) = crossR u v.
Proof. unfold crossR, rot; simpl. pose proof (sin2_cos2 phi) as S. unfold Rsqr in S.
  transitivity ((fst u * snd v - snd u * fst v) * (sin phi * sin phi + cos phi * cos phi)); [ring | rewrite S; ring]. Qed.
Lemma rot_len phi u : len (rot phi u) = len u.
Proof. unfold len. f_equal. exact (rot_dot phi u u). Qed.
Lemma rigid_ft phi tx ty (W : pcell -> Prop) h h' q p : rigid phi tx ty W h h' -> fin_in W h (PPoint p) ->
  fin_in W h (PPoint q) -> from_to (cfg_of h') q p = rot phi (from_to (cfg_of h) q p).
Proof.
  intros H P Q. destruct (rigid_pt _ _ _ _ _ _ p H P) as (E1 & E2 & _), (rigid_pt _ _ _ _ _ _ q H Q) as (E3 & E4 & _).
  unfold from_to. rewrite E1, E2, E3, E4. unfold rot; simpl. f_equal; ring.
Qed.
Lemma rigid_struct phi tx ty (W : pcell -> Prop) h h' : rigid phi tx ty W h h' -> struct_eq h h'.
Proof. intros (H & _). now apply same_structure_iff. Qed.
Lemma rigid_dir phi tx ty (W : pcell -> Prop) h h' l : rigid phi tx ty W h h' -> line_fin_in W h l -> dirR (cfg_of h') h' l = rot phi (dirR (cfg_of h) h l).
Proof.
  intros H [P Q]. unfold dirR. rewrite (struct_getL _ _ _ (rigid_struct _ _ _ _ _ _ H)). now apply (rigid_ft _ tx ty W).
Qed.
Lemma rigid_con_finite phi tx ty h h' c : rigid phi tx ty (fun d => In d (deps h c)) h h' -> con_finite h c -> con_finite h' c.
Proof.
  intros H [C1 C2]. split; auto. intros d Hd. rewrite (struct_deps _ _ _ (rigid_struct _ _ _ _ _ _ H)) in Hd. specialize (C2 d Hd).
  destruct d.
  - now apply (rigid_pt _ _ _ _ _ _ _ H).
  - reflexivity.
  - now apply (rigid_arc _ _ _ _ _ _ _ H).
  - exfalso. unfold deps in Hd. apply in_flat_map in Hd as (r & Hr & Hd).
    destruct c; simpl in Hr; intuition; subst; simpl in Hd; intuition; discriminate.
Qed.
Lemma rigid_end phi tx ty (W : pcell -> Prop) h h' a p : rigid phi tx ty W h h' -> fin_in W h (PArc a) ->
  fin_in W h (PPoint (a_center (getA h a))) -> fin_in W h (PPoint p) ->
  (fst (end_pt (cfg_of h') h' a) - cx (cfg_of h') p, snd (end_pt (cfg_of h') h' a) - cy (cfg_of h') p) =
    rot phi (fst (end_pt (cfg_of h) h a) - cx (cfg_of h) p, snd (end_pt (cfg_of h) h a) - cy (cfg_of h) p) /\
  (fst (start_pt (cfg_of h') h' a) - cx (cfg_of h') p, snd (start_pt (cfg_of h') h' a) - cy (cfg_of h') p) =
    rot phi (fst (start_pt (cfg_of h) h a) - cx (cfg_of h) p, snd (start_pt (cfg_of h) h a) - cy (cfg_of h) p).
Proof.
  intros H A P Q. destruct (rigid_arc _ _ _ _ _ _ a H A) as (E1 & E2 & E3 & _).
  destruct (rigid_pt _ _ _ _ _ _ _ H P) as (E4 & E5 & _). destruct (rigid_pt _ _ _ _ _ _ p H Q) as (E6 & E7 & _).
  unfold end_pt, start_pt. rewrite (struct_center _ _ _ (rigid_struct _ _ _ _ _ _ H)), E1, E2, E3, E4, E5, E6, E7.
  cbn [fst snd]. rewrite !cos_plus, !sin_plus. unfold rot; cbn [fst snd]. split; f_equal; ring.
Qed.
Lemma sum_sq_rot phi v : sq (fst (rot phi v)) + sq (snd (rot phi v)) = sq (fst v) + sq (snd v).
Proof. exact (rot_dot phi v v). Qed.
Lemma C20_rotation_lemma phi tx ty h h' c : rigid phi tx ty (fun d => In d (deps h c)) h h' -> con_finite h c -> rotation_invariant c = true ->
  loss_value h' c = loss_value h c.
Proof.
  intros H Hf Hi. rewrite !loss_R by eauto using rigid_con_finite. f_equal. unfold lossR. f_equal.
  pose proof (fin_in_pt h c) as PT. pose proof (fin_in_pt h c) as AR. pose proof (fin_in_line h c) as LN.
  destruct c; try discriminate; cbn [residual2].
  - unfold angleR. rewrite !(rigid_ft _ _ _ _ _ _ pm _ H) by (apply PT; simpl; auto). now rewrite !rot_dot, !rot_len.
  - destruct (rigid_end _ _ _ _ _ _ a p H (PT (PArc a) Hf ltac:(simpl; auto)) (PT (PPoint (a_center (getA h a))) Hf ltac:(simpl; auto)) (PT (PPoint p) Hf ltac:(simpl; auto))) as [E _].
    pose proof (f_equal fst E) as E1. pose proof (f_equal snd E) as E2. cbn [fst snd] in E1, E2. rewrite E1, E2. apply sum_sq_rot.
  - destruct (rigid_end _ _ _ _ _ _ a p H (PT (PArc a) Hf ltac:(simpl; auto)) (PT (PPoint (a_center (getA h a))) Hf ltac:(simpl; auto)) (PT (PPoint p) Hf ltac:(simpl; auto))) as [_ E].
    pose proof (f_equal fst E) as E1. pose proof (f_equal snd E) as E2. cbn [fst snd] in E1, E2. rewrite E1, E2. apply sum_sq_rot.
  - rewrite (rigid_ft _ _ _ _ _ _ p2 p1 H) by (apply PT; simpl; auto). now rewrite rot_len.
  - rewrite !(rigid_dir _ _ _ _ _ _ _ H) by (apply LN; simpl; auto). now rewrite !rot_len.
  - rewrite !(rigid_dir _ _ _ _ _ _ _ H) by (apply LN; simpl; auto). now rewrite !rot_len, rot_cross.
  - rewrite !(rigid_dir _ _ _ _ _ _ _ H) by (apply LN; simpl; auto). now rewrite !rot_len, rot_dot.
Qed.
Lemma rot_0 v : rot 0 v = v.
Proof. unfold rot. rewrite cos_0, sin_0. destruct v; simpl; f_equal; ring. Qed.
Lemma C20_translation_lemma tx ty h h' c : rigid 0 tx ty (fun d => In d (deps h c)) h h' -> con_finite h c -> translation_invariant c = true ->
  loss_value h' c = loss_value h c.
Proof.
  intros H Hf Hi. destruct (rotation_invariant c) eqn:E; [now apply (C20_rotation_lemma 0 tx ty)|].
  rewrite !loss_R by eauto using rigid_con_finite. f_equal. unfold lossR. f_equal.
  pose proof (fin_in_pt h c) as PT. pose proof (fin_in_line h c) as LN.
  destruct c; try discriminate; cbn [residual2].
  - pose proof (rigid_ft _ _ _ _ _ _ p1 p2 H (PT (PPoint p2) Hf ltac:(simpl; auto)) (PT (PPoint p1) Hf ltac:(simpl; auto))) as Q. rewrite rot_0 in Q.
    apply (f_equal fst) in Q. simpl in Q. simpl. now rewrite Q.
  - pose proof (rigid_ft _ _ _ _ _ _ p1 p2 H (PT (PPoint p2) Hf ltac:(simpl; auto)) (PT (PPoint p1) Hf ltac:(simpl; auto))) as Q. rewrite rot_0 in Q.
    apply (f_equal snd) in Q. simpl in Q. simpl. now rewrite Q.
  - rewrite (rigid_dir _ _ _ _ _ _ _ H) by (apply LN; simpl; auto). now rewrite rot_0.
  - rewrite (rigid_dir _ _ _ _ _ _ _ H) by (apply LN; simpl; auto). now rewrite rot_0.
Qed.
Lemma rigid_mono phi tx ty (W W' : pcell -> Prop) h h' : (forall d, W' d -> W d) -> rigid phi tx ty W h h' -> rigid phi tx ty W' h h'.
Proof. intros H (S & P & A). split; auto. Qed.
Lemma C20_sketch_lemma phi tx ty h h' s : refs_closed h s -> all_con_finite h s ->
  (forall k, In k (s_cons s) -> rotation_invariant (getK h k) = true \/ phi = 0 /\ translation_invariant (getK h k) = true) ->
  rigid phi tx ty (registered s) h h' -> get_loss h' s = get_loss h s.
Proof.
  intros [C1 C2] Hf Hi R. rewrite !get_loss_sum. f_equal. unfold get_loss_per_constraint. apply map_ext_in. intros k Hk.
  assert (K : getK h' k = getK h k). { unfold getK. now rewrite (proj1 (proj2 (proj1 R))). }
  rewrite K. assert (R' : rigid phi tx ty (fun d => In d (deps h (getK h k))) h h').
  { eapply rigid_mono; [|exact R]. intros d Hd. unfold deps in Hd. apply in_flat_map in Hd as (x & Hx & [<-|Hd]); eauto. }
  destruct (Hi k Hk) as [I|[-> I]]; [eapply C20_rotation_lemma | eapply C20_translation_lemma]; eauto.
Qed.
