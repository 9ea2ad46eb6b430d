(** * What no solver moves (proofs for C31, C62 and C63) *)
From Coq Require Import List ZArith NArith Arith Bool Lia Sorted Reals Lra.
From Coquelicot Require Import Coquelicot.
From Verif Require Import Arith Vec Prim Cons Sketch Solve Api Spec SolverSpec ArithR ExactSpec MotionSpec
  HeapLemmas SolveLemmas WfLemmas DataLemmas SpecLemmas ExactLemmas DerivLemmas GradLemmas PureLemmas LossLemmas
  SearchLemmas StepLemmas RMat NlsMat ExactRun RestLemmas ConserveLemmas.
Import ListNotations.
Local Open Scope R_scope.

(** ** the pairing only sees the cells a constraint depends on *)
Lemma pairing_far h D c :
  (forall l, In (PPoint l) (deps h c) -> cx D l = 0 /\ cy D l = 0) ->
  (forall a, In (PArc a) (deps h c) -> cr D a = 0 /\ csa D a = 0 /\ cea D a = 0) ->
  pairing h D (fin_rows h c) = 0.
Proof.
  intros HP HA. unfold pairing. apply sum_zeros. intros tr Htr. unfold fin_rows in Htr.
  apply in_map_iff in Htr as ([t r] & <- & Hr). assert (Ht := rows_targets h c _ Hr). simpl fst in *. clear Hr.
  assert (X : forall x, In x (tgt_cell t :: prim_refs h (tgt_cell t)) -> In x (deps h c)).
  { intros x Hx. unfold deps. apply in_flat_map. exists (tgt_cell t). auto. }
  destruct t as [l|l|a]; unfold pairT; cbn [fst snd tgt_cell prim_refs] in *.
  - destruct (HP l) as [-> ->]; [apply X; now left|]. ring.
  - destruct (HP (l_start (getL h l))) as [-> ->]; [apply X; simpl; auto|].
    destruct (HP (l_end (getL h l))) as [-> ->]; [apply X; simpl; auto|]. ring.
  - destruct (HP (a_center (getA h a))) as [-> ->]; [apply X; simpl; auto|].
    destruct (HA a) as (-> & -> & ->); [apply X; now left|]. ring.
Qed.
(** translating everything a translation-invariant constraint depends on changes nothing *)
Lemma pairing_translation h D c tx ty : con_finite h c -> eqlen_ok (cfg_of h) h c -> translation_invariant c = true ->
  (forall l, In (PPoint l) (deps h c) -> cx D l = tx /\ cy D l = ty) ->
  (forall a, In (PArc a) (deps h c) -> cr D a = 0 /\ csa D a = 0 /\ cea D a = 0) ->
  pairing h D (fin_rows h c) = 0.
Proof.
  intros Hf He Ht HP HA. destruct (fin_rows_ok h c Hf He) as (_ & _ & E1 & E2).
  destruct (Classical_Prop.classic (active (cfg_of h) h c)) as [Ac|Ac]; [rewrite (E1 Ac) | rewrite (E2 Ac); reflexivity].
  clear E1 E2 Ac Hf He.
  assert (X : forall r x, In r (con_refs c) -> In x (r :: prim_refs h r) -> In x (deps h c)).
  { intros r x Hr Hx. unfold deps. apply in_flat_map. eauto. }
  destruct c; try discriminate Ht; cbn [rowsR con_refs] in *; unfold pairing, pairT, on_line; cbn [map fst snd nth sumR fold_right];
  repeat match goal with
  | |- context [cx D ?l] => let A := fresh in let B := fresh in
      destruct (HP l) as [A B]; [first [eapply X; [left; reflexivity | simpl; auto; fail] | eapply X; [right; left; reflexivity | simpl; auto; fail] | eapply X; [right; right; left; reflexivity | simpl; auto; fail]] | rewrite A, B; clear A B]
  | |- context [cr D ?a] => let A := fresh in let B := fresh in let C := fresh in
      destruct (HA a) as (A & B & C); [first [eapply X; [left; reflexivity | simpl; auto; fail] | eapply X; [right; left; reflexivity | simpl; auto; fail]] | rewrite A, B, C; clear A B C]
  end; ring.
Qed.

(** ** vectors given cell by cell *)
Definition cellvec (s : sketch) (f : pcell -> list R) : list R := flat_map f (cells s).
Section CV.
Variables (s : sketch) (f : pcell -> list R).
Hypothesis Hf : forall c, length (f c) = dim c.
Lemma cellvec_length : length (cellvec s f) = dims (cells s).
Proof.
  unfold cellvec, dims. induction (cells s) as [|c l IH]; simpl; auto. now rewrite app_length, IH, Hf.
Qed.
Lemma cellvec_chunk c : In c (cells s) -> chunk (cells s) (cellvec s f) c = f c.
Proof. intros Hc. now apply chunk_flat. Qed.
Lemma cellvec_dot (h : heap xR) : NoDup (cells s) ->
  dotL (map vx (get_data h s)) (cellvec s f) = sumR (map (fun c => dotL (map vx (prim_data h c)) (f c)) (cells s)).
Proof.
  intros Hn. assert (E : map vx (get_data h s) = flat_map (fun c => map vx (prim_data h c)) (cells s)).
  { unfold get_data. clear. induction (cells s) as [|c l IH]; simpl; auto. now rewrite map_app, IH. }
  rewrite E, dot_cells; auto; [|apply cellvec_length | intros; rewrite map_length; apply prim_data_dim].
  apply sum_same. intros c Hc. now rewrite cellvec_chunk.
Qed.
Lemma D_cellvec_pt l : In (PPoint l) (cells s) ->
  cx (D_of (cells s) (cellvec s f)) l = nth 0 (f (PPoint l)) 0 /\ cy (D_of (cells s) (cellvec s f)) l = nth 1 (f (PPoint l)) 0.
Proof. intros H. simpl. now rewrite cellvec_chunk. Qed.
Lemma D_cellvec_arc a : In (PArc a) (cells s) ->
  cr (D_of (cells s) (cellvec s f)) a = nth 0 (f (PArc a)) 0 /\ csa (D_of (cells s) (cellvec s f)) a = nth 1 (f (PArc a)) 0 /\
  cea (D_of (cells s) (cellvec s f)) a = nth 2 (f (PArc a)) 0.
Proof. intros H. simpl. now rewrite cellvec_chunk. Qed.
End CV.
Lemma D_of_pt_out cs v l : ~ In (PPoint l) cs -> cx (D_of cs v) l = 0 /\ cy (D_of cs v) l = 0.
Proof. intros H. simpl. now rewrite chunk_none. Qed.
Lemma D_of_arc_out cs v a : ~ In (PArc a) cs -> cr (D_of cs v) a = 0 /\ csa (D_of cs v) a = 0 /\ cea (D_of cs v) a = 0.
Proof. intros H. simpl. now rewrite chunk_none. Qed.

Lemma ok_deps s h0 h k : okh s h0 h -> deps h (getK h k) = deps h0 (getK h0 k).
Proof. intros [[S _] _]. rewrite (struct_getK _ _ _ S). now apply ExactRun.struct_deps. Qed.
Lemma KK_start s h u : finite_data h s -> valid h s -> KK s h u h.
Proof. intros Fd V. split; auto. split; [apply frame_refl|]. now apply (finite_iff _ _ (valid_keys _ _ V)). Qed.

(** ** C31 for every solver *)
Lemma dot_ext n a b : length a = n -> length b = n -> (forall e, length e = n -> dotL a e = dotL b e) -> a = b.
Proof.
  intros La Lb H. apply nth_ext0; [congruence|]. intros i Hi.
  rewrite <- (dot_unit a n i La), <- (dot_unit b n i Lb). apply H. apply unitv_length.
Qed.
Lemma solve_data_finite pinv sol s (h : heap xR) c : valid h s -> finite_data h s -> In c (cells s) ->
  prim_data (fst (solve pinv sol s h)) c = map Fin (map vx (prim_data (fst (solve pinv sol s h)) c)).
Proof.
  intros V Fd Hc. apply all_finite_inv. unfold all_finite. apply forallb_forall.
  assert (G := C32_lemma pinv sol s h V Fd c (proj2 (valid_reg _ _ _ V) Hc)). rewrite List.Forall_forall in G. exact G.
Qed.
Lemma C31_all_lemma pinv sol (h : heap xR) s c : exact_pinv pinv -> finite_steps sol ->
  valid h s -> finite_data h s -> all_con_finite h s -> registered s c ->
  (forall k, In k (s_cons s) -> ~ In c (deps h (getK h k))) ->
  prim_data (fst (solve pinv sol s h)) c = prim_data h c.
Proof.
  intros PI Fs V Fd CF Hc Hk. apply (valid_reg _ _ _ V) in Hc.
  assert (ND := valid_nd _ _ V).
  assert (Fh : prim_data h c = map Fin (map vx (prim_data h c))).
  { apply all_finite_inv. unfold all_finite. apply forallb_forall.
    assert (G := Fd c (proj2 (valid_reg _ _ _ V) Hc)). rewrite List.Forall_forall in G. exact G. }
  rewrite (solve_data_finite pinv sol s h c V Fd Hc), Fh. f_equal.
  apply (dot_ext (dim c)); try (rewrite map_length; apply prim_data_dim). intros e Le.
  set (f := fun x => if pcell_eqb x c then e else repeat 0 (dim x)).
  assert (Hf : forall x, length (f x) = dim x).
  { intros x. unfold f. destruct (pcell_eqb x c) eqn:E; [apply pcell_eqb_eq in E; now subst | apply repeat_length]. }
  assert (Lu : length (cellvec s f) = get_n_dofs h s) by (rewrite cellvec_length, n_dofs_dims; auto).
  assert (Off : forall x j, x <> c -> nth j (f x) 0 = 0).
  { intros x j Hx. unfold f. apply pcell_eqb_neq in Hx. rewrite Hx. apply nth_repeat. }
  assert (Hu : forall h1 k, okh s h h1 -> good s h1 -> In k (s_cons s) ->
     pairing h1 (D_of (cells s) (cellvec s f)) (fin_rows h1 (getK h1 k)) = 0).
  { intros h1 k Ho _ Hkin. apply pairing_far; rewrite (ok_deps s h h1 k Ho).
    - intros l Hl. destruct (in_dec pcell_dec (PPoint l) (cells s)) as [Hi|Hi]; [|now apply D_of_pt_out].
      destruct (D_cellvec_pt s f Hf l Hi) as [-> ->]. rewrite !Off; auto; intros E; rewrite E in Hl; eapply Hk; eauto.
    - intros a Ha. destruct (in_dec pcell_dec (PArc a) (cells s)) as [Hi|Hi]; [|now apply D_of_arc_out].
      destruct (D_cellvec_arc s f Hf a Hi) as (-> & -> & ->). rewrite !Off; auto; intros E; rewrite E in Ha; eapply Hk; eauto. }
  destruct (solve_KK s h (cellvec s f) V CF Lu Hu pinv PI sol Fs (KK_start s h _ Fd V)) as [_ E].
  rewrite !cellvec_dot in E by auto.
  assert (X : forall h1 : heap xR, sumR (map (fun x => dotL (map vx (prim_data h1 x)) (f x)) (cells s)) = dotL (map vx (prim_data h1 c)) e).
  { intros h1. rewrite (sum_upd (fun _ => 0) _ c (dotL (map vx (prim_data h1 c)) e)); auto.
    - rewrite (sum_zeros (fun _ : pcell => 0)) by auto. ring.
    - intros x _ Hx. unfold f. apply pcell_eqb_neq in Hx. rewrite Hx. apply dot_repeat0.
    - intros _. unfold f. rewrite pcell_eqb_refl. ring.
    - tauto. }
  rewrite !X in E. exact E.
Qed.

(** ** C62: floating groups of points keep their centre *)
Definition memb (W : list loc) (l : loc) : bool := if in_dec Nat.eq_dec l W then true else false.
Definition trans_cell (W : list loc) (tx ty : R) (c : pcell) : list R :=
  match c with PPoint l => if memb W l then [tx; ty] else [0; 0] | _ => repeat 0 (dim c) end.
Lemma trans_dim W tx ty c : length (trans_cell W tx ty c) = dim c.
Proof. destruct c; simpl; auto. destruct (memb W l); auto. Qed.
Lemma sum_group (g : loc -> R) cs : NoDup cs -> forall W, NoDup W -> (forall l, In l W -> In (PPoint l) cs) ->
  sumR (map (fun c => match c with PPoint l => if memb W l then g l else 0 | _ => 0 end) cs) = sumR (map g W).
Proof.
  intros Hn. induction W as [|w W IH]; intros HW Hi.
  - simpl. apply sum_zeros. intros [l| | |] _; auto.
  - inversion HW; subst. simpl. fold (sumR (map g W)). rewrite <- IH; [|auto|intros; apply Hi; now right].
    rewrite (sum_upd (fun c => match c with PPoint l => if memb W l then g l else 0 | _ => 0 end) _ (PPoint w) (g w)); auto; [ring| | |].
    + intros [l| | |] _ Hne; auto. unfold memb. simpl. destruct (Nat.eq_dec w l) as [->|]; [congruence|].
      destruct (in_dec Nat.eq_dec l W); auto.
    + intros _. unfold memb. simpl. destruct (Nat.eq_dec w w); [|congruence].
      destruct (in_dec Nat.eq_dec w W); [tauto|]. ring.
    + intros Hni. exfalso. apply Hni. apply Hi. now left.
Qed.
Lemma C62_lemma pinv sol (h : heap xR) s W : exact_pinv pinv -> finite_steps sol ->
  valid h s -> finite_data h s -> all_con_finite h s -> floating h s W ->
  sum_x (fst (solve pinv sol s h)) W = sum_x h W /\ sum_y (fst (solve pinv sol s h)) W = sum_y h W.
Proof.
  intros PI Fs V Fd CF (NW & RW & FW).
  assert (ND := valid_nd _ _ V).
  assert (Hi : forall l, In l W -> In (PPoint l) (cells s)) by (intros l Hl; apply (valid_reg _ _ _ V); auto).
  assert (G : forall tx ty, tx * sum_x (fst (solve pinv sol s h)) W + ty * sum_y (fst (solve pinv sol s h)) W = tx * sum_x h W + ty * sum_y h W).
  { intros tx ty. set (f := trans_cell W tx ty). assert (Hf := trans_dim W tx ty). fold f in Hf.
    assert (Lu : length (cellvec s f) = get_n_dofs h s) by (rewrite cellvec_length, n_dofs_dims; auto).
    assert (Arc : forall a, cr (D_of (cells s) (cellvec s f)) a = 0 /\ csa (D_of (cells s) (cellvec s f)) a = 0 /\ cea (D_of (cells s) (cellvec s f)) a = 0).
    { intros a. destruct (in_dec pcell_dec (PArc a) (cells s)) as [Ha|Ha]; [|now apply D_of_arc_out].
      destruct (D_cellvec_arc s f Hf a Ha) as (-> & -> & ->). auto. }
    assert (InW : forall l, In l W -> cx (D_of (cells s) (cellvec s f)) l = tx /\ cy (D_of (cells s) (cellvec s f)) l = ty).
    { intros l Hl. destruct (D_cellvec_pt s f Hf l (Hi l Hl)) as [-> ->]. unfold f, trans_cell, memb.
      destruct (in_dec Nat.eq_dec l W); [auto | tauto]. }
    assert (OutW : forall l, ~ In l W -> cx (D_of (cells s) (cellvec s f)) l = 0 /\ cy (D_of (cells s) (cellvec s f)) l = 0).
    { intros l Hl. destruct (in_dec pcell_dec (PPoint l) (cells s)) as [Hin|Hin]; [|now apply D_of_pt_out].
      destruct (D_cellvec_pt s f Hf l Hin) as [-> ->]. unfold f, trans_cell, memb. destruct (in_dec Nat.eq_dec l W); [tauto | auto]. }
    assert (Hu : forall h1 k, okh s h h1 -> good s h1 -> In k (s_cons s) ->
       pairing h1 (D_of (cells s) (cellvec s f)) (fin_rows h1 (getK h1 k)) = 0).
    { intros h1 k Ho Hg Hk. destruct (FW k Hk) as [Far|[Ti Near]].
      - apply pairing_far; rewrite (ok_deps s h h1 k Ho); auto.
      - destruct (Hg k Hk) as [G1 G2]. apply (pairing_translation h1 _ (getK h1 k) tx ty); auto.
        + destruct Ho as [[S _] _]. now rewrite (struct_getK _ _ _ S).
        + rewrite (ok_deps s h h1 k Ho). auto. }
    destruct (solve_KK s h (cellvec s f) V CF Lu Hu pinv PI sol Fs (KK_start s h _ Fd V)) as [_ E].
    rewrite !cellvec_dot in E by auto.
    assert (X : forall h1 : heap xR, sumR (map (fun x => dotL (map vx (prim_data h1 x)) (f x)) (cells s)) = tx * sum_x h1 W + ty * sum_y h1 W).
    { intros h1. unfold sum_x, sum_y.
      assert (Lin : tx * sumR (map (cx (cfg_of h1)) W) + ty * sumR (map (cy (cfg_of h1)) W) = sumR (map (fun l => tx * cx (cfg_of h1) l + ty * cy (cfg_of h1) l) W)).
      { clear. induction W as [|w W IH]; simpl; [ring|]. fold (sumR (map (fun l => tx * vx (p_x (getP h1 l)) + ty * vx (p_y (getP h1 l))) W)).
        simpl in IH. unfold sumR in *. rewrite <- IH. ring. }
      rewrite Lin, <- (sum_group _ (cells s) ND W NW Hi). apply sum_same. intros [l|l|l|l] _; unfold f, trans_cell; cbn [dim prim_data].
      - destruct (memb W l); unfold dotL; simpl; ring.
      - reflexivity.
      - unfold dotL; simpl; ring.
      - unfold dotL; simpl; ring. }
    rewrite !X in E. exact E. }
  split; [specialize (G 1 0) | specialize (G 0 1)]; lra.
Qed.
