(** * The gradient checker in exact arithmetic *)
From Coq Require Import List ZArith NArith Arith Bool Lia Sorted Reals Lra.
From Verif Require Import Arith Vec Prim Cons Sketch Solve Api Spec CellSpec ArithR ExactSpec
  HeapLemmas DataLemmas SpecLemmas ExactLemmas GradLemmas LossLemmas RMat CellForms.
Import ListNotations.
Local Open Scope R_scope.

(** the direction of parameter [i] of the cell [c] *)
Definition dir (cs : list pcell) (c : pcell) (i : nat) : list R :=
  flat_map (fun c' => if pcell_eqb c' c then unitv (dim c') i else repeat 0 (dim c')) cs.
Lemma dir_one c i c' : length (if pcell_eqb c' c then unitv (dim c') i else repeat 0 (dim c')) = dim c'.
Proof. destruct (pcell_eqb c' c); [apply unitv_length | apply repeat_length]. Qed.
Lemma dir_length cs c i : length (dir cs c i) = dims cs.
Proof. unfold dir, dims. induction cs as [|x cs IH]; simpl; auto. now rewrite app_length, dir_one, IH. Qed.
Lemma dir_chunk cs c i c' : In c' cs -> chunk cs (dir cs c i) c' = if pcell_eqb c' c then unitv (dim c') i else repeat 0 (dim c').
Proof. intros H. unfold dir. apply (chunk_flat cs (fun c' => if pcell_eqb c' c then unitv (dim c') i else repeat 0 (dim c'))); auto using dir_one. Qed.
Lemma sum_zero {T} (f : T -> R) l : (forall x, In x l -> f x = 0) -> sumR (map f l) = 0.
Proof. induction l as [|a l IH]; simpl; intros H; auto. rewrite H, IH; auto. lra. Qed.
Lemma sum_single {T} (f : T -> R) l x : NoDup l -> In x l -> (forall y, In y l -> y <> x -> f y = 0) -> sumR (map f l) = f x.
Proof.
  induction l as [|a l IH]; simpl; intros Hn Hx H; [tauto|]. inversion Hn; subst. destruct Hx as [->|Hx].
  - rewrite sum_zero; [lra|]. intros y Hy. apply H; auto. intros ->. tauto.
  - rewrite IH; auto. rewrite (H a); auto; [lra|]. intros ->. tauto.
Qed.
Lemma dot_dir cs gv c i : NoDup cs -> In c cs -> (forall c, length (gv c) = dim c) ->
  dotL (flat_map gv cs) (dir cs c i) = nth i (gv c) 0.
Proof.
  intros Hn Hc Hg. rewrite dot_cells; auto using dir_length.
  rewrite (sum_single _ _ c Hn Hc).
  - rewrite dir_chunk, pcell_eqb_refl by auto. apply dot_unit. apply Hg.
  - intros y Hy N. rewrite dir_chunk by auto. apply pcell_eqb_neq in N. rewrite N. apply dot_zeros. intros x Hx. now apply repeat_spec in Hx.
Qed.

Section C.
Variables (h : heap xR) (s : sketch) (k : loc).
Hypothesis V : valid h s.
Hypothesis Hf : finite_data h s.

Lemma reg_fin c : In c (cells s) -> prim_data h c = map Fin (map vx (prim_data h c)).
Proof.
  intros H. apply all_finite_inv. apply forallb_forall. intros x Hx.
  apply (valid_reg _ _ _ V) in H. exact (proj1 (List.Forall_forall _ _) (Hf c H) x Hx).
Qed.
Lemma dir_moved c i t : In c (cells s) -> (i < length (prim_data h c))%nat ->
  one_moved h c i (nth i (prim_data h c) f0 +f Fin t) (moved h s (dir (cells s) c i) t).
Proof.
  intros Hc Hi.
  assert (Ld : length (dir (cells s) c i) = get_n_dofs h s) by (rewrite dir_length, n_dofs_dims; reflexivity).
  destruct (moved_ok h s (dir (cells s) c i) t (valid_nd _ _ V) (valid_cells _ _ V) Ld) as (S1 & S2 & S3 & _).
  split; [exact S1|]. split.
  - rewrite S2, dir_chunk, pcell_eqb_refl by auto. pose proof (reg_fin c Hc) as E. revert E Hi. clear.
    destruct c; simpl; intros E Hi; try lia.
    + injection E as E1 E2. rewrite E1, E2. destruct i as [|[|i]]; try lia; simpl; repeat f_equal; ring.
    + injection E as E1 E2 E3. rewrite E1, E2, E3. destruct i as [|[|[|i]]]; try lia; simpl; repeat f_equal; ring.
    + injection E as E1. rewrite E1. destruct i as [|i]; try lia; simpl; repeat f_equal; ring.
  - intros c' N. destruct (in_dec pcell_dec c' (cells s)) as [Hi'|Hi']; [|now apply S3].
    rewrite S2, dir_chunk by auto. apply pcell_eqb_neq in N. rewrite N. rewrite (reg_fin c' Hi') at 2. f_equal. rewrite <- (prim_data_dim h c'), <- (map_length vx).
    generalize (map vx (prim_data h c')). clear. intros v. induction v as [|a v IH]; simpl; auto. rewrite IH. f_equal. ring.
Qed.

Lemma all_small {T} (l : list T) (P : T -> R -> Prop) :
  (forall x, In x l -> exists e, 0 < e /\ forall t, t <> 0 -> Rabs t < e -> P x t) ->
  exists e, 0 < e /\ forall x, In x l -> forall t, t <> 0 -> Rabs t < e -> P x t.
Proof.
  induction l as [|a l IH]; intros H.
  - exists 1. split; [lra|]. intros x [].
  - destruct (H a) as (e1 & P1 & H1); [now left|]. destruct IH as (e2 & P2 & H2); [intros x Hx; apply H; now right|].
    exists (Rmin e1 e2). split; [now apply Rmin_glb_lt|]. intros x [<-|Hx] t T0 T1.
    + apply H1; auto. eapply Rlt_le_trans; [exact T1 | apply Rmin_l].
    + apply H2; auto. eapply Rlt_le_trans; [exact T1 | apply Rmin_r].
Qed.

Hypothesis Hk : s_cons s = [k].
Hypothesis Hc : con_finite h (getK h k).
Hypothesis Hn : nondegenerate (cfg_of h) h (getK h k).

Lemma acf : all_con_finite h s.
Proof. intros j Hj. rewrite Hk in Hj. destruct Hj as [<-|[]]. exact Hc. Qed.
Lemma loss_single hx : getK hx k = getK h k -> con_finite hx (getK h k) -> loss_value hx (getK h k) = get_loss hx s.
Proof.
  intros E Hx. rewrite get_loss_R; [|intros j Hj; rewrite Hk in Hj; destruct Hj as [<-|[]]; rewrite E; exact Hx].
  rewrite Hk. simpl. rewrite E, loss_R by exact Hx. f_equal. ring.
Qed.
Lemma vnorm_small (u : list R) ce : 0 < ce -> (length u <= 3)%nat -> (forall x, In x u -> Rabs x < ce / 4) ->
  flt (vnorm (map Fin u)) (Fin ce) = true.
Proof.
  intros Hp Hl Hu. unfold vnorm. change (map Fin u) with (FinV u). rewrite vdot_R.
  assert (B : forall n v, (length v <= n)%nat -> (forall x, In x v -> Rabs x < ce / 4) -> 0 <= dotL v v <= INR n * (ce / 4 * (ce / 4))).
  { induction n as [|n IH]; intros v L B.
    - destruct v; [|simpl in L; lia]. unfold dotL; simpl. lra.
    - destruct v as [|a v].
      + unfold dotL; simpl map2; simpl sumR. rewrite S_INR. pose proof (pos_INR n). nra.
      + simpl in L. destruct (IH v) as [I1 I2]; [lia | intros x Hx; apply B; now right |].
        change (dotL (a :: v) (a :: v)) with (a * a + dotL v v). rewrite S_INR.
        assert (Ba : Rabs a < ce / 4) by (apply B; now left). apply Rabs_def2 in Ba. nra. }
  destruct (B 3%nat u Hl Hu) as [B1 B2]. simpl. destruct (Rlt_dec (dotL u u) 0); [lra|].
  cbn [xlt]. unfold Rltb. destruct (Rlt_dec (sqrt (dotL u u)) ce) as [|N]; [reflexivity|]. exfalso. apply N.
  rewrite <- (sqrt_square ce) by lra. apply sqrt_lt_1; try nra. simpl in B2. nra.
Qed.

Lemma check_exact ce : 0 < ce -> exists e0, 0 < e0 /\ forall e, e <> 0 -> Rabs e < e0 ->
  exists h', check_gradients s (Fin e) k (Fin ce) h = (h', Val tt).
Proof.
  intros Hce. pose proof (valid_nd _ _ V) as ND. pose proof (valid_cells _ _ V) as OK.
  assert (Hn' : forall j, In j (s_cons s) -> nondegenerate (cfg_of h) h (getK h j)).
  { intros j Hj. rewrite Hk in Hj. destruct Hj as [<-|[]]. exact Hn. }
  destruct (C15_lemma h s V acf Hn') as (h' & g & E & Lg & P).
  assert (Es : stored_gradient s h' = map Fin g).
  { unfold get_gradient, mbind, massert, mret in E. destruct (mfor _ _ _) as [h1 [u|]]; [|discriminate].
    destruct (forallb _ _); [|discriminate]. congruence. }
  set (gv := fun c => map vx (prim_grad h' c)).
  assert (Eg : g = flat_map gv (cells s)).
  { unfold stored_gradient in Es. apply (f_equal (map vx)) in Es. rewrite map_map in Es. simpl in Es. rewrite map_id in Es. rewrite <- Es.
    unfold gv. clear. induction (cells s) as [|c cs IH]; simpl; auto. now rewrite map_app, IH. }
  assert (Gc : forall c, In c (cells s) -> prim_grad h' c = map Fin (gv c)).
  { intros c Hc'. apply all_finite_inv. apply forallb_forall. intros x Hx.
    assert (In x (stored_gradient s h')) by (apply in_flat_map; eauto). rewrite Es in H. apply in_map_iff in H as (y & <- & _). reflexivity. }
  assert (Lgv : forall c, length (gv c) = dim c).
  { intros c. unfold gv. rewrite map_length, prim_grad_length. apply prim_data_dim. }
  set (f := fun c i t => vx (get_loss (moved h s (dir (cells s) c i) t) s)).
  assert (Ld : forall c i, length (dir (cells s) c i) = get_n_dofs h s) by (intros; rewrite dir_length, n_dofs_dims; reflexivity).
  destruct (all_small (list_prod (cells s) (seq 0 3)) (fun ci t => Rabs ((f (fst ci) (snd ci) t - f (fst ci) (snd ci) 0) / t - nth (snd ci) (gv (fst ci)) 0) < ce / 4)) as (e0 & P0 & H0).
  { intros [c i] Hci. apply in_prod_iff in Hci as [Hc' _]. simpl.
    destruct (P (dir (cells s) c i) (Ld c i)) as (_ & _ & D). rewrite Eg, dot_dir in D by auto.
    destruct (D (ce / 4)) as [dl Hd]; [lra|]. exists dl. split; [apply cond_pos|]. intros t T0 T1. specialize (Hd t T0 T1).
    rewrite Rplus_0_l in Hd. exact Hd. }
  exists e0. split; [exact P0|]. intros e E0 E1. exists h'. apply (proj2 (check_lemma s (Fin e) k (Fin ce) h V Hf)).
  exists (map Fin g). split; [exact E|]. intros c Hr. apply (valid_reg _ _ _ V) in Hr.
  set (qs := map (fun i => (f c i e - f c i 0) / e) (seq 0 (length (prim_data h c)))).
  assert (Lp : (length (prim_data h c) <= 3)%nat) by (destruct c; simpl; lia).
  assert (Lc : forall i t, loss_value (moved h s (dir (cells s) c i) t) (getK h k) = Fin (f c i t)).
  { intros i t. destruct (moved_ok h s (dir (cells s) c i) t ND OK (Ld c i)) as (S1 & _).
    rewrite loss_single; [|now rewrite (struct_getK _ _ _ S1) | now apply moved_con_finite].
    destruct (P (dir (cells s) c i) (Ld c i)) as (_ & Pf & _). specialize (Pf t). unfold f.
    destruct (get_loss (moved h s (dir (cells s) c i) t) s); try discriminate. reflexivity. }
  exists (map Fin qs). split; [unfold qs; now rewrite !map_length, seq_length|]. split.
  - intros i x Hx. unfold qs in Hx. rewrite map_map in Hx.
    assert (Hi : (i < length (prim_data h c))%nat).
    { assert (nth_error (map (fun x => Fin ((f c x e - f c x 0) / e)) (seq 0 (length (prim_data h c)))) i <> None) by congruence.
      apply nth_error_Some in H. now rewrite map_length, seq_length in H. }
    rewrite nth_error_map, (nth_seq _ _ Hi) in Hx. simpl in Hx. injection Hx as <-.
    pose proof (reg_fin c Hr) as Ef.
    exists (nth i (prim_data h c) f0), (moved h s (dir (cells s) c i) e). split; [now apply nth_error_nth'|].
    split; [|split; [now apply dir_moved|]].
    + assert (Hin : In (nth i (prim_data h c) f0) (prim_data h c)) by now apply nth_In.
      rewrite Ef in Hin at 2. apply in_map_iff in Hin as (y & <- & _). reflexivity.
    + rewrite Lc. assert (L0 : loss_value h (getK h k) = Fin (f c i 0)).
      { rewrite <- (Lc i 0). symmetry. apply sd_loss.
        destruct (moved_ok h s (dir (cells s) c i) 0 ND OK (Ld c i)) as (S1 & S2 & S3 & _). split; [exact S1|].
        intros d _. destruct (in_dec pcell_dec d (cells s)) as [Hd|Hd]; [|now apply S3].
        rewrite S2 by auto. rewrite (reg_fin d Hd) at 2. f_equal.
        assert (L1 : length (chunk (cells s) (dir (cells s) c i) d) = length (map vx (prim_data h d))).
        { rewrite chunk_length; auto using dir_length. rewrite map_length. symmetry. apply prim_data_dim. }
        revert L1. generalize (chunk (cells s) (dir (cells s) c i) d) (map vx (prim_data h d)). clear.
        intros u v. revert u. induction v as [|a v IH]; intros [|b u] L; simpl in *; try lia; auto. rewrite IH by lia. f_equal. ring. }
      rewrite L0. simpl. destruct (Req_EM_T e 0) as [|]; [congruence|]. reflexivity.
  - rewrite (Gc c Hr). unfold vsub.
    assert (Em : map2 fsub (map Fin qs) (map Fin (gv c)) = map Fin (map2 Rminus qs (gv c))).
    { generalize qs (gv c). clear. induction qs as [|a u IH]; intros [|b v]; simpl; auto. now rewrite IH. }
    rewrite Em. apply vnorm_small; [exact Hce| |].
    + rewrite map2_length; [|unfold qs; rewrite map_length, seq_length, Lgv; apply prim_data_dim]. unfold qs. now rewrite map_length, seq_length.
    + intros x Hx. apply In_nth with (d := 0) in Hx as (i & Hi & <-).
      assert (Lq : length qs = length (gv c)) by (unfold qs; rewrite map_length, seq_length, Lgv; apply prim_data_dim).
      rewrite map2_length in Hi by exact Lq. unfold qs in Hi. rewrite map_length, seq_length in Hi.
      assert (En : nth i (map2 Rminus qs (gv c)) 0 = nth i qs 0 - nth i (gv c) 0).
      { revert Lq. assert (Hi' : (i < length qs)%nat) by (unfold qs; now rewrite map_length, seq_length). revert Hi'. generalize qs (gv c) i. clear.
        induction qs as [|a u IH]; intros [|b v] [|i] H L; simpl in *; try lia; auto. apply IH; lia. }
      rewrite En. unfold qs. rewrite (nth_indep _ 0 ((fun i => (f c i e - f c i 0) / e) 0%nat)) by now rewrite map_length, seq_length.
      rewrite (map_nth (fun i => (f c i e - f c i 0) / e)), seq_nth by exact Hi. simpl.
      apply (H0 (c, i)); auto. apply in_prod; auto. apply in_seq. lia.
Qed.
End C.
