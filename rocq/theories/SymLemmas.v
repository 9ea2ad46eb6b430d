(** * Congruent sketches stay congruent (proofs for C66 and C67) *)
From Coq Require Import List ZArith NArith Arith Bool Lia Permutation Reals Lra.
From Verif Require Import Arith Vec Prim Cons Sketch Solve Api Spec SolverSpec ArithR ExactSpec MotionSpec SymSpec
  HeapLemmas SolveLemmas WfLemmas DataLemmas SpecLemmas ExactLemmas DerivLemmas GradLemmas PureLemmas LossLemmas
  SearchLemmas StepLemmas RMat NlsMat ExactRun RestLemmas ConserveLemmas MotionLemmas SymSim SymGeo.
Import ListNotations.
Local Open Scope R_scope.

(** ** vectors as families of pieces *)
Lemma flat_chunk cs : NoDup cs -> forall v : list R, length v = dims cs -> flat_map (chunk cs v) cs = v.
Proof.
  induction cs as [|x cs IH]; intros Hn v Hl; [destruct v; auto; discriminate|]. inversion Hn; subst. simpl.
  rewrite pcell_eqb_refl. unfold dims in Hl; simpl in Hl; fold (dims cs) in Hl.
  transitivity (firstn (dim x) v ++ skipn (dim x) v); [f_equal | apply firstn_skipn].
  transitivity (flat_map (chunk cs (skipn (dim x) v)) cs); [|apply IH; auto; rewrite skipn_length; lia].
  rewrite !flat_map_concat_map. f_equal. apply map_ext_in. intros c Hc. destruct (pcell_eqb x c) eqn:E; auto.
  apply pcell_eqb_eq in E. subst. tauto.
Qed.
Lemma flat_inj {T} (f g : pcell -> list T) l : (forall c, In c l -> length (f c) = length (g c)) ->
  flat_map f l = flat_map g l -> forall c, In c l -> f c = g c.
Proof.
  induction l as [|x l IH]; intros HL E c Hc; [destruct Hc|]. simpl in E.
  assert (X : f x = g x /\ flat_map f l = flat_map g l).
  { pose proof (HL x (or_introl eq_refl)) as L. clear - E L. revert E L. generalize (f x) (g x) (flat_map f l) (flat_map g l).
    induction l0 as [|a u IH]; intros [|b v] p q E L; simpl in *; try discriminate; auto. injection E as -> E. injection L as L.
    destruct (IH v p q E L) as [-> ->]; auto. }
  destruct X as [X1 X2]. destruct Hc as [<-|Hc]; auto. apply IH; auto. intros d Hd. apply HL. now right.
Qed.
Lemma flat_ext {T} (f g : pcell -> list T) l : (forall c, In c l -> f c = g c) -> flat_map f l = flat_map g l.
Proof. intros H. rewrite !flat_map_concat_map. f_equal. now apply map_ext_in. Qed.
Lemma flat_map_map {T U V} (f : T -> list U) (g : V -> T) l : flat_map f (map g l) = flat_map (fun x => f (g x)) l.
Proof. induction l; simpl; congruence. Qed.
Lemma map_flat {T U} (f : T -> U) (g : pcell -> list T) l : map f (flat_map g l) = flat_map (fun c => map f (g c)) l.
Proof. induction l; simpl; auto. now rewrite map_app, IHl. Qed.
Lemma flat_add (f g : pcell -> list R) l : (forall c, In c l -> length (f c) = length (g c)) ->
  addL (flat_map f l) (flat_map g l) = flat_map (fun c => addL (f c) (g c)) l.
Proof.
  induction l as [|x l IH]; intros HL; simpl; auto. rewrite <- IH by (intros; apply HL; now right).
  pose proof (HL x (or_introl eq_refl)) as L. revert L. generalize (f x) (g x). unfold addL.
  induction l0 as [|a u IHu]; intros [|b v] L; simpl in *; try discriminate; auto. f_equal. apply IHu. lia.
Qed.
Lemma dims_perm a b : Permutation a b -> dims a = dims b.
Proof. unfold dims. induction 1; simpl; lia. Qed.
Lemma flat_len {T} (f : pcell -> list T) l : (forall c, In c l -> length (f c) = dim c) -> length (flat_map f l) = dims l.
Proof.
  unfold dims. induction l as [|x l IH]; intros H; simpl; auto. rewrite app_length, IH by (intros; apply H; now right).
  rewrite H by now left. auto.
Qed.
Lemma dot_flat (f g : pcell -> list R) l : (forall c, In c l -> length (f c) = length (g c)) ->
  dotL (flat_map f l) (flat_map g l) = sumR (map (fun c => dotL (f c) (g c)) l).
Proof.
  induction l as [|x l IH]; intros HL; simpl; [reflexivity|]. rewrite dotL_app.
  pose proof (HL x (or_introl eq_refl)) as L. rewrite L, firstn_app, skipn_app, firstn_all, skipn_all, Nat.sub_diag. simpl.
  rewrite app_nil_r, IH by (intros; apply HL; now right). reflexivity.
Qed.
Lemma combine_map {A B C} (f : A -> B) (g : A -> C) l : combine (map f l) (map g l) = map (fun x => (f x, g x)) l.
Proof. induction l; simpl; congruence. Qed.

(** ** moved constraints *)
Lemma ren_dim r c : dim (ren r c) = dim c. Proof. destruct c; reflexivity. Qed.
Lemma move_refs r phi tx ty c : con_refs (move_con r phi tx ty c) = map (ren r) (con_refs c).
Proof. destruct c; reflexivity. Qed.
Lemma move_ok r phi tx ty c : con_new_ok c = true -> con_new_ok (move_con r phi tx ty c) = true.
Proof. destruct c; auto. Qed.
Lemma move_length phi tx ty c d : length (move_data phi tx ty c d) = length d.
Proof. destruct c; auto; [destruct d as [|? [|? [|]]] | destruct d as [|? [|? [|? [|]]]]]; reflexivity. Qed.

Section C.
Variables (r : renaming) (phi tx ty : R) (s1 s2 : sketch) (h01 h02 : heap xR).
Hypothesis V1 : valid h01 s1.
Hypothesis V2 : valid h02 s2.
Hypothesis RC : refs_closed h01 s1.
Hypothesis FD : finite_data h01 s1.
Hypothesis CF : all_con_finite h01 s1.
Hypothesis CG : congruent r phi tx ty h01 s1 h02 s2.
Hypothesis TU : forall k, In k (s_cons s1) -> turnable phi (getK h01 k).

Let c1 := cells s1.
Let W (c : pcell) : Prop := In c c1.
Let reg c : registered s1 c <-> W c := valid_reg _ _ c V1.

Lemma inj_cells c d : W c -> W d -> ren r c = ren r d -> c = d.
Proof. intros Hc Hd. apply (proj1 CG); now apply reg. Qed.
Lemma cells_perm : Permutation (cells s2) (map (ren r) c1).
Proof.
  apply NoDup_Permutation.
  - apply (valid_nd _ _ V2).
  - assert (X : forall l, incl l c1 -> NoDup l -> NoDup (map (ren r) l)).
    { induction l as [|x l IH]; intros Hi Hn; simpl; constructor; inversion Hn; subst.
      - intros Hx. apply in_map_iff in Hx as (y & E & Hy). apply H1. apply inj_cells in E; [now subst | |];
          apply Hi; [now right | now left].
      - apply IH; auto. intros y Hy. apply Hi. now right. }
    apply X; [apply incl_refl | apply (valid_nd _ _ V1)].
  - intros x. rewrite <- (valid_reg _ _ x V2), (proj1 (proj2 CG)), in_map_iff. split.
    + intros (c & Hc & ->). exists c. split; auto. now apply reg.
    + intros (c & <- & Hc). exists c. split; auto. now apply reg.
Qed.

(** the order of the second sketch *)
Variable cs : list pcell.
Hypothesis E2 : cells s2 = map (ren r) cs.
Hypothesis P2 : Permutation c1 cs.
Lemma in_cs c : In c cs <-> W c.
Proof. split; apply Permutation_in; auto. now symmetry. Qed.
Let n := dims c1.
Lemma dims_cs : dims cs = n. Proof. symmetry. now apply dims_perm. Qed.
Lemma dims_c2 : dims (cells s2) = n.
Proof. rewrite E2, <- dims_cs. unfold dims. rewrite map_map. f_equal. apply map_ext. apply ren_dim. Qed.
Lemma nd1 : NoDup c1. Proof. apply (valid_nd _ _ V1). Qed.

Lemma chunk2 {T} (f : pcell -> list T) c : (forall x, In x cs -> length (f x) = dim x) -> In c cs ->
  chunk (map (ren r) cs) (flat_map f cs) (ren r c) = f c.
Proof.
  assert (X : forall l, (forall x, In x l -> W x) -> (forall x, In x l -> length (f x) = dim x) -> In c l ->
    chunk (map (ren r) l) (flat_map f l) (ren r c) = f c).
  { induction l as [|x l IH]; intros Hw Hf Hi; simpl; [destruct Hi|]. rewrite ren_dim.
    destruct (pcell_eqb (ren r x) (ren r c)) eqn:E.
    - apply pcell_eqb_eq in E. apply inj_cells in E; auto; [|apply Hw; now left]. subst x.
      rewrite firstn_app, (Hf c) by now left. rewrite Nat.sub_diag, firstn_O, app_nil_r.
      rewrite <- (Hf c) by now left. apply firstn_all.
    - apply pcell_eqb_neq in E. destruct Hi as [->|Hi]; [congruence|].
      rewrite skipn_app, (Hf x) by now left. rewrite Nat.sub_diag, skipn_O.
      rewrite <- (Hf x) by now left. rewrite skipn_all. simpl. apply IH; auto; intros; [apply Hw | apply Hf]; now right. }
  intros Hf Hc. apply X; auto. intros. now apply in_cs.
Qed.

(** ** the two maps *)
Definition tq (c : pcell) (v : list R) : list R :=
  match c, v with PPoint _, [x; y] => [x * cos phi - y * sin phi; x * sin phi + y * cos phi] | _, _ => v end.
Definition untq (c : pcell) (v : list R) : list R :=
  match c, v with PPoint _, [x; y] => [x * cos phi + y * sin phi; - x * sin phi + y * cos phi] | _, _ => v end.
Definition Qf (v : list R) : list R := flat_map (fun c => tq c (chunk c1 v c)) cs.
Definition Df (v : list R) : list R := flat_map (fun c => move_data phi tx ty c (chunk c1 v c)) cs.
Lemma tq_length c v : length (tq c v) = length v.
Proof. destruct c; auto. destruct v as [|? [|? [|]]]; reflexivity. Qed.
Lemma untq_length c v : length (untq c v) = length v.
Proof. destruct c; auto. destruct v as [|? [|? [|]]]; reflexivity. Qed.
Lemma tq_untq c v : tq c (untq c v) = v.
Proof.
  destruct c; auto. destruct v as [|x [|y [|]]]; auto. simpl. pose proof (sin2_cos2 phi) as S. unfold Rsqr in S.
  f_equal; [|f_equal].
  - transitivity (x * (sin phi * sin phi + cos phi * cos phi)); [ring | rewrite S; ring].
  - transitivity (y * (sin phi * sin phi + cos phi * cos phi)); [ring | rewrite S; ring].
Qed.
Lemma clen (v : list R) c : length v = n -> In c cs -> length (chunk c1 v c) = dim c.
Proof. intros L Hc. apply chunk_length; auto. now apply in_cs. Qed.
Lemma Qf_len v : length v = n -> length (Qf v) = n.
Proof. intros L. unfold Qf. rewrite flat_len; [apply dims_cs|]. intros. rewrite tq_length. now apply clen. Qed.
Lemma Df_len v : length v = n -> length (Df v) = n.
Proof. intros L. unfold Df. rewrite flat_len; [apply dims_cs|]. intros. rewrite move_length. now apply clen. Qed.
Lemma tq_add c u v : length u = length v -> tq c (addL u v) = addL (tq c u) (tq c v).
Proof.
  intros L. destruct c; auto. destruct u as [|a [|b [|c u]]]; destruct v as [|x [|y [|z v]]]; try discriminate; auto.
  unfold addL; simpl. f_equal; [|f_equal]; ring.
Qed.
Lemma Qf_add u v : length u = n -> length v = n -> Qf (addL u v) = addL (Qf u) (Qf v).
Proof.
  intros Lu Lv. unfold Qf. rewrite flat_add.
  2:{ intros c Hc. rewrite !tq_length, !clen; auto. }
  apply flat_ext. intros c Hc. unfold addL at 1. rewrite chunk_map2. apply tq_add. rewrite !clen; auto.
Qed.
Lemma Df_add u v : length u = n -> length v = n -> Df (addL u v) = addL (Df u) (Qf v).
Proof.
  intros Lu Lv. unfold Df, Qf. rewrite flat_add.
  2:{ intros c Hc. rewrite tq_length, move_length, !clen; auto. }
  apply flat_ext. intros c Hc. unfold addL at 1. rewrite chunk_map2.
  pose proof (clen u c Lu Hc) as A. pose proof (clen v c Lv Hc) as B.
  revert A B. generalize (chunk c1 u c) (chunk c1 v c). intros p q A B.
  destruct c; try reflexivity.
  - destruct p as [|a [|b [|]]]; try discriminate. destruct q as [|x [|y [|]]]; try discriminate.
    unfold addL; simpl. unfold move_x, move_y. f_equal; [|f_equal]; ring.
  - destruct p as [|a [|b [|c [|]]]]; try discriminate. destruct q as [|x [|y [|z [|]]]]; try discriminate.
    unfold addL; simpl. f_equal; f_equal; [ring | f_equal; ring].
Qed.
Lemma Qf_scl a v : length v = n -> Qf (sclL a v) = sclL a (Qf v).
Proof.
  intros L. unfold Qf, sclL. rewrite map_flat. apply flat_ext. intros c Hc. rewrite chunk_map.
  generalize (chunk c1 v c). intros p. destruct c; auto. destruct p as [|x [|y [|]]]; auto. simpl. f_equal; [|f_equal]; ring.
Qed.
Lemma tq_dot c u v : length u = length v -> dotL (tq c u) (tq c v) = dotL u v.
Proof.
  intros L. destruct c; auto. destruct u as [|a [|b [|c u]]]; destruct v as [|x [|y [|z v]]]; try discriminate; auto.
  pose proof (rot_dot phi (a, b) (x, y)) as E. unfold dotR, rot in E; simpl in E. unfold dotL, sumR; simpl. lra.
Qed.
Lemma Qf_dot u v : length u = n -> length v = n -> dotL (Qf u) (Qf v) = dotL u v.
Proof.
  intros Lu Lv. rewrite <- (flat_chunk c1 nd1 u) at 2 by auto. rewrite <- (flat_chunk c1 nd1 v) at 2 by auto.
  unfold Qf. rewrite !dot_flat.
  - rewrite (sum_perm _ (map (fun c => dotL (tq c (chunk c1 u c)) (tq c (chunk c1 v c))) c1)).
    + apply sum_same. intros c Hc. apply tq_dot. rewrite !chunk_length; auto.
    + apply Permutation_map. now symmetry.
  - intros c Hc. rewrite !chunk_length; auto.
  - intros c Hc. rewrite !tq_length, !clen; auto.
Qed.
Lemma Qf_onto e : length e = n -> exists d, length d = n /\ Qf d = e.
Proof.
  intros L. exists (flat_map (fun c => untq c (chunk (cells s2) e (ren r c))) c1).
  assert (LL : forall c, In c c1 -> length (untq c (chunk (cells s2) e (ren r c))) = dim c).
  { intros c Hc. rewrite untq_length, chunk_length; [apply ren_dim | | now rewrite dims_c2].
    rewrite E2. apply in_map. now apply in_cs. }
  split; [now apply flat_len|]. unfold Qf.
  rewrite (flat_ext _ (fun c => chunk (cells s2) e (ren r c))).
  - rewrite <- (flat_map_map (chunk (cells s2) e) (ren r)), <- E2. apply flat_chunk; [apply (valid_nd _ _ V2) | now rewrite dims_c2].
  - intros c Hc. assert (Hc1 : In c c1) by now apply in_cs.
    assert (X : chunk c1 (flat_map (fun c => untq c (chunk (cells s2) e (ren r c))) c1) c = untq c (chunk (cells s2) e (ren r c))).
    { assert (Y := flat_inj (chunk c1 (flat_map (fun c => untq c (chunk (cells s2) e (ren r c))) c1)) (fun c => untq c (chunk (cells s2) e (ren r c))) c1).
      apply Y; auto.
      - intros x Hx. rewrite LL by auto. apply chunk_length; auto. now apply flat_len.
      - apply flat_chunk; [apply nd1 | now apply flat_len]. }
    rewrite X. apply tq_untq.
Qed.
Lemma Qf_iso : isometry n Qf.
Proof.
  split; [apply Qf_len|]. split; [apply Qf_add|]. split; [intros a v L; now apply Qf_scl|]. split; [apply Qf_dot | apply Qf_onto].
Qed.
Lemma Q_ext a b : length a = n -> length b = n -> (forall d, length d = n -> dotL a (Qf d) = dotL b (Qf d)) -> a = b.
Proof. intros La Lb H. apply (dot_ext n); auto. intros e Le. destruct (Qf_onto e Le) as (d & Ld & <-). auto. Qed.

(** ** the relation *)
Definition Rel (h1 h2 : heap xR) : Prop := okh s1 h01 h1 /\ okh s2 h02 h2 /\ congruent r phi tx ty h1 s1 h2 s2.
Lemma rel_intro h1 h2 : okh s1 h01 h1 -> okh s2 h02 h2 ->
  (forall c d, W c -> prim_data h1 c = map Fin d -> prim_data h2 (ren r c) = map Fin (move_data phi tx ty c d)) -> Rel h1 h2.
Proof.
  intros O1 O2 HD. split; auto. split; auto. destruct CG as (G1 & G2 & G3 & G4 & _).
  pose proof (frame_struct _ _ _ (proj1 O1)) as S1. pose proof (frame_struct _ _ _ (proj1 O2)) as S2.
  split; auto. split; auto. split; [|split].
  - rewrite (map_ext (getK h2) (getK h02)) by (intros; now apply struct_getK).
    rewrite (map_ext (fun k => move_con r phi tx ty (getK h1 k)) (fun k => move_con r phi tx ty (getK h01 k))); auto.
    intros k. f_equal. now apply struct_getK.
  - intros c Hc. rewrite (struct_refs _ _ _ S2), (struct_refs _ _ _ S1). auto.
  - intros c d Hc. apply HD. now apply reg.
Qed.
Lemma rel_sd h1 h2 i1 i2 : sdeq h1 i1 -> sdeq h2 i2 -> Rel h1 h2 -> Rel i1 i2.
Proof.
  intros S1 S2 (O1 & O2 & G). apply rel_intro; [now apply (ok_sd _ _ _ _ S1) | now apply (ok_sd _ _ _ _ S2)|].
  intros c d Hc E. rewrite (proj2 S1) in E by exact I. rewrite (proj2 S2) by exact I. apply G; auto. now apply reg.
Qed.

Section At.
Variables (h1 h2 : heap xR).
Hypothesis HR : Rel h1 h2.
Let O1 : okh s1 h01 h1 := proj1 HR.
Let O2 : okh s2 h02 h2 := proj1 (proj2 HR).
Let G : congruent r phi tx ty h1 s1 h2 s2 := proj2 (proj2 HR).
Let Sx1 : struct_eq h01 h1 := frame_struct _ _ _ (proj1 O1).
Let Sx2 : struct_eq h02 h2 := frame_struct _ _ _ (proj1 O2).
Let Vx1 : valid h1 s1 := ok_valid _ _ V1 _ O1.
Let Vx2 : valid h2 s2 := ok_valid _ _ V2 _ O2.

Lemma data_fin c : W c -> prim_data h1 c = map Fin (map vx (prim_data h1 c)).
Proof.
  intros Hc. apply all_finite_inv. pose proof (proj2 O1) as F. unfold get_data, all_finite in *. rewrite forallb_forall in F.
  apply forallb_forall. intros x Hx. apply F. apply in_flat_map. eauto.
Qed.
Lemma data_rel c : W c -> prim_data h2 (ren r c) = map Fin (move_data phi tx ty c (map vx (prim_data h1 c))).
Proof. intros Hc. apply G; [now apply reg | now apply data_fin]. Qed.
Lemma closed1 c x : W c -> In x (prim_refs h1 c) -> W x.
Proof. intros Hc Hx. rewrite (struct_refs _ _ _ Sx1) in Hx. apply reg. eapply (proj1 RC); eauto. now apply reg. Qed.
Lemma con1 k : In k (s_cons s1) -> wref W (getK h1 k).
Proof. intros Hk x Hx. rewrite (struct_getK _ _ _ Sx1) in Hx. apply reg. eapply (proj2 RC); eauto. Qed.
Lemma turn1 k : In k (s_cons s1) -> turnable phi (getK h1 k).
Proof. intros Hk. rewrite (struct_getK _ _ _ Sx1). auto. Qed.
Lemma HP1 l : W (PPoint l) -> cx (cfg_of h2) (rn_point r l) = move_x phi tx (cx (cfg_of h1) l) (cy (cfg_of h1) l) /\
  cy (cfg_of h2) (rn_point r l) = move_y phi ty (cx (cfg_of h1) l) (cy (cfg_of h1) l).
Proof. intros H. pose proof (data_rel _ H) as E. simpl in E. injection E as E3 E4. simpl. rewrite E3, E4. auto. Qed.
Lemma HA1 a : W (PArc a) -> cr (cfg_of h2) (rn_arc r a) = cr (cfg_of h1) a /\
  csa (cfg_of h2) (rn_arc r a) = csa (cfg_of h1) a + phi /\ cea (cfg_of h2) (rn_arc r a) = cea (cfg_of h1) a + phi.
Proof. intros H. pose proof (data_rel _ H) as E. simpl in E. injection E as E3 E4 E5. simpl. rewrite E3, E4, E5. auto. Qed.
Lemma HL1 l : W (PLine l) -> l_start (getL h2 (rn_line r l)) = rn_point r (l_start (getL h1 l)) /\
  l_end (getL h2 (rn_line r l)) = rn_point r (l_end (getL h1 l)) /\ W (PPoint (l_start (getL h1 l))) /\ W (PPoint (l_end (getL h1 l))).
Proof.
  intros H. destruct G as (_ & _ & _ & G4 & _). pose proof (G4 _ (proj2 (reg _) H)) as E. simpl in E. injection E as -> ->.
  repeat split; apply (closed1 (PLine l)); simpl; auto.
Qed.
Lemma HA2 a : W (PArc a) -> a_center (getA h2 (rn_arc r a)) = rn_point r (a_center (getA h1 a)) /\ W (PPoint (a_center (getA h1 a))).
Proof.
  intros H. destruct G as (_ & _ & _ & G4 & _). pose proof (G4 _ (proj2 (reg _) H)) as E. simpl in E. injection E as ->.
  split; auto. apply (closed1 (PArc a)); simpl; auto.
Qed.
Lemma fin1 k : In k (s_cons s1) -> con_finite h1 (getK h1 k).
Proof. apply (ok_fin s1 h01 CF _ O1). Qed.
Lemma fin_moved k : In k (s_cons s1) -> con_finite h2 (move_con r phi tx ty (getK h1 k)).
Proof.
  intros Hk. destruct (fin1 k Hk) as [N D]. split; [now apply move_ok|]. intros d Hd. unfold deps in Hd.
  rewrite move_refs in Hd. apply in_flat_map in Hd as (y & Hy & Hd). apply in_map_iff in Hy as (x & <- & Hx).
  pose proof (con1 k Hk x Hx) as Wx.
  assert (X : exists z, W z /\ d = ren r z).
  { destruct Hd as [<-|Hd]; [eauto|]. destruct G as (_ & _ & _ & G4 & _). rewrite (G4 x) in Hd by now apply reg.
    apply in_map_iff in Hd as (z & <- & Hz). exists z. split; auto. now apply (closed1 x). }
  destruct X as (z & Wz & ->). rewrite data_rel by auto. apply finite_FinV.
Qed.
Lemma con2 k2 : In k2 (s_cons s2) -> exists k, In k (s_cons s1) /\ getK h2 k2 = move_con r phi tx ty (getK h1 k).
Proof.
  intros Hk. destruct G as (_ & _ & G3 & _). assert (X : In (getK h2 k2) (map (getK h2) (s_cons s2))) by now apply in_map.
  apply (Permutation_in _ G3) in X. apply in_map_iff in X as (k & E & Hk1). eauto.
Qed.
Lemma con2' k : In k (s_cons s1) -> exists k2, In k2 (s_cons s2) /\ getK h2 k2 = move_con r phi tx ty (getK h1 k).
Proof.
  intros Hk. destruct G as (_ & _ & G3 & _).
  assert (X : In (move_con r phi tx ty (getK h1 k)) (map (fun k => move_con r phi tx ty (getK h1 k)) (s_cons s1))).
  { apply in_map_iff. eauto. }
  apply (Permutation_in _ (Permutation_sym G3)) in X. apply in_map_iff in X as (k2 & E & Hk2). eauto.
Qed.
Lemma fin2 : all_con_finite h2 s2.
Proof. intros k2 Hk. destruct (con2 k2 Hk) as (k & Hk1 & ->). now apply fin_moved. Qed.
Lemma good_rel : good s1 h1 <-> good s2 h2.
Proof.
  split; intros H k Hk.
  - destruct (con2 k Hk) as (k1 & Hk1 & ->). split; [now apply fin_moved|].
    apply (m_eqlen r phi tx ty h1 h2 W HP1 HL1); [now apply con1 | now apply H].
  - split; [now apply fin1|]. destruct (con2' k Hk) as (k2 & Hk2 & E). destruct (H k2 Hk2) as [_ X]. rewrite E in X.
    apply (m_eqlen r phi tx ty h1 h2 W HP1 HL1) in X; auto. now apply con1.
Qed.
Lemma sum_rel (f1 f2 : con xR -> R) : (forall k, In k (s_cons s1) -> f2 (move_con r phi tx ty (getK h1 k)) = f1 (getK h1 k)) ->
  sumR (map (fun k => f2 (getK h2 k)) (s_cons s2)) = sumR (map (fun k => f1 (getK h1 k)) (s_cons s1)).
Proof.
  intros H. destruct G as (_ & _ & G3 & _). rewrite <- (map_map (getK h2) f2).
  rewrite (sum_perm _ _ (Permutation_map f2 G3)), map_map. f_equal. now apply map_ext_in.
Qed.
Lemma loss_rel : get_loss h2 s2 = get_loss h1 s1.
Proof.
  rewrite (get_loss_R h2 s2 fin2), (get_loss_R h1 s1 (ok_fin s1 h01 CF _ O1)). f_equal. apply sum_rel. intros k Hk.
  apply (m_lossR r phi tx ty h1 h2 W HP1 HA1 HL1 HA2); [now apply turn1 | now apply con1].
Qed.
Lemma data_R : exists x, length x = n /\ get_data h1 s1 = FinV x /\ get_data h2 s2 = FinV (Df x).
Proof.
  exists (map vx (get_data h1 s1)).
  assert (L : length (map vx (get_data h1 s1)) = n) by (rewrite map_length, get_data_length; apply n_dofs_dims).
  split; auto. split; [now apply (ok_data s1 h01)|].
  unfold get_data at 1. rewrite E2, flat_map_map. unfold Df, FinV. rewrite map_flat. apply flat_ext. intros c Hc.
  assert (Wc : W c) by now apply in_cs. rewrite data_rel by auto. f_equal. f_equal. rewrite chunk_map. f_equal.
  unfold get_data. symmetry. apply chunk_flat; auto. intros. apply prim_data_dim.
Qed.

(** directions *)
Lemma D_turn d : length d = n ->
  (forall l, W (PPoint l) -> cx (D_of (cells s2) (Qf d)) (rn_point r l) = cx (D_of c1 d) l * cos phi - cy (D_of c1 d) l * sin phi /\
     cy (D_of (cells s2) (Qf d)) (rn_point r l) = cx (D_of c1 d) l * sin phi + cy (D_of c1 d) l * cos phi) /\
  (forall a, W (PArc a) -> cr (D_of (cells s2) (Qf d)) (rn_arc r a) = cr (D_of c1 d) a /\
     csa (D_of (cells s2) (Qf d)) (rn_arc r a) = csa (D_of c1 d) a /\ cea (D_of (cells s2) (Qf d)) (rn_arc r a) = cea (D_of c1 d) a).
Proof.
  intros L.
  assert (X : forall c, W c -> chunk (cells s2) (Qf d) (ren r c) = tq c (chunk c1 d c)).
  { intros c Hc. rewrite E2. apply (chunk2 (fun c => tq c (chunk c1 d c))); [|now apply in_cs]. intros x Hx. rewrite tq_length. now apply clen. }
  split.
  - intros l Hl. pose proof (X _ Hl) as E. pose proof (chunk_length c1 d _ Hl L) as Lc. simpl in E, Lc. simpl. rewrite E.
    destruct (chunk c1 d (PPoint l)) as [|a [|b [|]]]; try discriminate. simpl. auto.
  - intros l Hl. pose proof (X _ Hl) as E. simpl in E. simpl. now rewrite E.
Qed.
Lemma pair_rel d k : length d = n -> good s1 h1 -> In k (s_cons s1) ->
  pairing h2 (D_of (cells s2) (Qf d)) (fin_rows h2 (move_con r phi tx ty (getK h1 k))) =
  pairing h1 (D_of c1 d) (fin_rows h1 (getK h1 k)).
Proof.
  intros L Hg Hk. destruct (D_turn d L) as [DP DA].
  apply (m_fin r phi tx ty h1 h2 W HP1 HA1 HL1 HA2 _ _ DP DA); auto;
    [now apply turn1 | now apply con1 | now apply fin1 | now apply fin_moved | now apply Hg].
Qed.
Lemma ndof1 : get_n_dofs h1 s1 = n. Proof. apply n_dofs_dims. Qed.
Lemma ndof2 : get_n_dofs h2 s2 = n. Proof. rewrite n_dofs_dims. apply dims_c2. Qed.
Lemma grad_rel : exists i1 i2, Rel i1 i2 /\
  ((exists g, length g = n /\ get_gradient s1 h1 = (i1, Val (FinV g)) /\ get_gradient s2 h2 = (i2, Val (FinV (Qf g)))) \/
   (get_gradient s1 h1 = (i1, Panic) /\ get_gradient s2 h2 = (i2, Panic))).
Proof.
  destruct (get_gradient s1 h1) as [i1 o1] eqn:Eg1. destruct (get_gradient s2 h2) as [i2 o2] eqn:Eg2. exists i1, i2.
  split; [apply (rel_sd h1 h2); auto; eapply gradient_sd; eauto|].
  destruct (Classical_Prop.classic (good s1 h1)) as [Hg|Hg].
  - left. destruct (gradient_ok s1 h1 nd1 (valid_cells _ _ Vx1) Hg) as (j1 & F1 & L1 & D1).
    destruct (gradient_ok s2 h2 (valid_nd _ _ Vx2) (valid_cells _ _ Vx2) (proj1 good_rel Hg)) as (j2 & F2 & L2 & D2).
    rewrite Eg1 in F1. injection F1 as -> ->. rewrite Eg2 in F2. injection F2 as -> ->.
    exists (gvec s1 j1). rewrite ndof1 in *. rewrite ndof2 in *. split; auto. split; auto. unfold FinV.
    replace (gvec s2 j2) with (Qf (gvec s1 j1)); [reflexivity|]. symmetry. apply Q_ext; auto; [now apply Qf_len|]. intros d Ld. rewrite Qf_dot, D1, D2 by (auto; now apply Qf_len).
    apply (sum_rel (fun c => pairing h1 (D_of (cells s1) d) (fin_rows h1 c)) (fun c => pairing h2 (D_of (cells s2) (Qf d)) (fin_rows h2 c))).
    intros k Hk. now apply pair_rel.
  - right. assert (Hg2 : ~ good s2 h2) by (intros X; apply Hg; now apply good_rel).
    destruct o1 as [g1|]; [exfalso; apply Hg; apply not_panic_good; auto; [apply (ok_fin s1 h01 CF _ O1)|]; left; rewrite Eg1; discriminate|].
    destruct o2 as [g2|]; [exfalso; apply Hg2; apply not_panic_good; auto; [apply fin2|]; left; rewrite Eg2; discriminate|]. auto.
Qed.

(** Jacobians *)
Definition rowf (s : sketch) (h : heap xR) (c : con xR) : list R :=
  map (fun j => pairing h (D_of (cells s) (unitv n j)) (fin_rows h c)) (seq 0 n).
Lemma rowf_unique s h c row : length row = n -> (forall d, length d = n -> dotL row d = pairing h (D_of (cells s) d) (fin_rows h c)) ->
  row = rowf s h c.
Proof.
  intros L H. apply nth_ext0; [unfold rowf; now rewrite map_length, seq_length|]. rewrite L. intros j Hj.
  rewrite <- (dot_unit row n j L), H by apply unitv_length. unfold rowf.
  rewrite (nth_indep _ 0 (pairing h (D_of (cells s) (unitv n 0)) (fin_rows h c))) by now rewrite map_length, seq_length.
  rewrite (map_nth (fun j => pairing h (D_of (cells s) (unitv n j)) (fin_rows h c))). now rewrite seq_nth.
Qed.
Lemma jac_form s h i J0 : valid h s -> good s h -> get_n_dofs h s = n -> get_jacobian s h = (i, Val J0) ->
  J0 = FinM (map (rowf s h) (map (getK h) (s_cons s))) /\
  (forall k, In k (s_cons s) -> forall d, length d = n -> dotL (rowf s h (getK h k)) d = pairing h (D_of (cells s) d) (fin_rows h (getK h k))).
Proof.
  intros Vh Hg Nd E.
  destruct (jacobian_ok s h (valid_nd _ _ Vh) (valid_cells _ _ Vh) Hg (s_cons s) (incl_refl _) h) as (i' & J & F & _ & F2);
    [split; [apply struct_pre | intros ? ?; reflexivity]|].
  unfold get_jacobian in E. rewrite E in F. injection F as -> ->. rewrite Nd in F2.
  assert (X : J = map (rowf s h) (map (getK h) (s_cons s)) /\ forall k, In k (s_cons s) -> forall d, length d = n ->
     dotL (rowf s h (getK h k)) d = pairing h (D_of (cells s) d) (fin_rows h (getK h k))).
  { clear E Hg. revert F2. generalize (s_cons s). intros ks F2. induction F2 as [|k row ks J [L H] F2 IH].
    - split; auto. intros ? [].
    - destruct IH as [-> H2]. pose proof (rowf_unique s h _ _ L H) as ->. split; auto. intros k' [<-|Hk']; auto. }
  destruct X as [-> X]. split; auto.
Qed.
Lemma loss_form s h : all_con_finite h s ->
  get_loss_per_constraint h s = FinV (map (lossR (cfg_of h) h) (map (getK h) (s_cons s))).
Proof.
  intros H. unfold get_loss_per_constraint, FinV. rewrite !map_map. apply map_ext_in. intros k Hk. apply loss_R. auto.
Qed.
Lemma jac_rel : exists i1 i2, Rel i1 i2 /\
  ((exists J1 J2 w1 w2, get_jacobian s1 h1 = (i1, Val (FinM J1)) /\ get_jacobian s2 h2 = (i2, Val (FinM J2)) /\
      get_loss_per_constraint h1 s1 = FinV w1 /\ get_loss_per_constraint h2 s2 = FinV w2 /\
      rows n J1 /\ rows n J2 /\ length w1 = length J1 /\ length w2 = length J2 /\
      Permutation (combine J2 w2) (map (fun p => (Qf (fst p), snd p)) (combine J1 w1))) \/
   (get_jacobian s1 h1 = (i1, Panic) /\ get_jacobian s2 h2 = (i2, Panic))).
Proof.
  destruct (get_jacobian s1 h1) as [i1 o1] eqn:Eg1. destruct (get_jacobian s2 h2) as [i2 o2] eqn:Eg2. exists i1, i2.
  split; [apply (rel_sd h1 h2); auto; eapply jacobian_sd; eauto|].
  pose proof (ok_fin s1 h01 CF _ O1) as CF1. pose proof fin2 as CF2.
  destruct (C18_lemma h1 s1 Vx1 CF1) as [_ P1]. destruct (C18_lemma h2 s2 Vx2 CF2) as [_ P2'].
  destruct o1 as [J1|].
  - assert (Hg1 : good s1 h1) by (apply not_panic_good; auto; right; rewrite Eg1; discriminate).
    pose proof (proj1 good_rel Hg1) as Hg2.
    destruct o2 as [J2|].
    2:{ exfalso. destruct (jacobian_ok s2 h2 (valid_nd _ _ Vx2) (valid_cells _ _ Vx2) Hg2 (s_cons s2) (incl_refl _) h2) as (i' & J & F & _);
          [split; [apply struct_pre | intros ? ?; reflexivity]|]. unfold get_jacobian in Eg2. rewrite Eg2 in F. discriminate. }
    left. destruct (jac_form s1 h1 i1 J1 Vx1 Hg1 ndof1 Eg1) as [-> D1]. destruct (jac_form s2 h2 i2 J2 Vx2 Hg2 ndof2 Eg2) as [-> D2].
    assert (RR : forall s h l, rows n (map (rowf s h) l)).
    { intros s h l. unfold rows. apply List.Forall_forall. intros x Hx. apply in_map_iff in Hx as (c & <- & _).
      unfold rowf. now rewrite map_length, seq_length. }
    exists (map (rowf s1 h1) (map (getK h1) (s_cons s1))), (map (rowf s2 h2) (map (getK h2) (s_cons s2))),
      (map (lossR (cfg_of h1) h1) (map (getK h1) (s_cons s1))), (map (lossR (cfg_of h2) h2) (map (getK h2) (s_cons s2))).
    split; auto. split; auto. split; [now apply loss_form|]. split; [now apply loss_form|].
    split; [apply RR|]. split; [apply RR|]. split; [now rewrite !map_length|]. split; [now rewrite !map_length|].
    rewrite !combine_map. destruct G as (_ & _ & G3 & _).
    rewrite (Permutation_map (fun x => (rowf s2 h2 x, lossR (cfg_of h2) h2 x)) G3). rewrite !map_map. cbn [fst snd].
    erewrite map_ext_in; [apply Permutation_refl|]. intros k Hk. cbn beta. f_equal.
    + destruct (con2' k Hk) as (k2 & Hk2 & E). rewrite <- E.
      assert (LL : forall s h c, length (rowf s h c) = n) by (intros; unfold rowf; now rewrite map_length, seq_length).
      apply Q_ext; [apply LL | apply Qf_len, LL|]. intros d Ld. rewrite D2 by (auto; now apply Qf_len).
      rewrite Qf_dot, D1 by auto. rewrite E. now apply pair_rel.
    + apply (m_lossR r phi tx ty h1 h2 W HP1 HA1 HL1 HA2); [now apply turn1 | now apply con1].
  - right. destruct o2 as [J2|]; auto. exfalso.
    assert (Hg2 : good s2 h2) by (apply not_panic_good; auto; right; rewrite Eg2; discriminate).
    pose proof (proj2 good_rel Hg2) as Hg1.
    destruct (jacobian_ok s1 h1 (valid_nd _ _ Vx1) (valid_cells _ _ Vx1) Hg1 (s_cons s1) (incl_refl _) h1) as (i' & J & F & _);
          [split; [apply struct_pre | intros ? ?; reflexivity]|]. unfold get_jacobian in Eg1. rewrite Eg1 in F. discriminate.
Qed.
Lemma set_rel x : length x = n -> exists i1 i2, Rel i1 i2 /\
  set_data s1 (FinV x) h1 = (i1, Val tt) /\ set_data s2 (FinV (Df x)) h2 = (i2, Val tt).
Proof.
  intros L. destruct (set_data_ok s1 (FinV x) h1) as [i1 F1]; [now rewrite FinV_length, ndof1 | apply finite_FinV|].
  destruct (set_data_ok s2 (FinV (Df x)) h2) as [i2 F2]; [rewrite FinV_length, ndof2; now apply Df_len | apply finite_FinV|].
  exists i1, i2. split; auto.
  destruct (ok_set s1 h01 V1 _ _ _ (proj1 O1) F1) as [N1 D1]. destruct (ok_set s2 h02 V2 _ _ _ (proj1 O2) F2) as [N2 D2].
  apply rel_intro; auto. intros c d Hc E.
  assert (X1 : prim_data i1 c = map Fin (chunk c1 x c)).
  { rewrite <- chunk_map. fold (FinV x). rewrite <- D1. unfold get_data. symmetry. apply chunk_flat; auto. intros. apply prim_data_dim. }
  assert (X2 : prim_data i2 (ren r c) = map Fin (move_data phi tx ty c (chunk c1 x c))).
  { unfold get_data in D2. rewrite E2, flat_map_map in D2. unfold Df, FinV in D2. rewrite map_flat in D2.
    apply (flat_inj _ _ _) with (c := c) in D2; auto; [|now apply in_cs].
    intros y Hy. rewrite map_length, move_length, prim_data_dim, ren_dim. symmetry. now apply clen. }
  rewrite X2. f_equal. f_equal. rewrite X1 in E. now apply FinV_inj.
Qed.
End At.

Lemma rel_start : Rel h01 h02.
Proof.
  assert (D : forall c, W c -> exists d, prim_data h01 c = map Fin d).
  { intros c Hc. exists (map vx (prim_data h01 c)). apply all_finite_inv. unfold all_finite. apply forallb_forall.
    pose proof (FD c (proj2 (reg c) Hc)) as F. rewrite List.Forall_forall in F. exact F. }
  apply rel_intro.
  - split; [apply frame_refl|]. now apply (finite_iff _ _ (valid_keys _ _ V1)).
  - split; [apply frame_refl|]. rewrite get_data_finite_iff. intros c2 Hc2.
    rewrite E2 in Hc2. apply in_map_iff in Hc2 as (c & <- & Hc). apply in_cs in Hc. destruct (D c Hc) as [d Ed].
    destruct CG as (_ & _ & _ & _ & G5). rewrite (G5 c d) by (auto; now apply reg). apply finite_FinV.
  - intros c d Hc E. apply CG; auto. now apply reg.
Qed.

(** ** the solvers *)
Definition amax (v : list R) : R := fold_right (fun x a => Rmax (Rabs x) a) 0 v.
Lemma amax_pos v : 0 <= amax v.
Proof. induction v; simpl; [lra|]. eapply Rle_trans; [exact IHv | apply Rmax_r]. Qed.
Lemma amax_app u v : amax (u ++ v) = Rmax (amax u) (amax v).
Proof.
  induction u as [|x u IH]; simpl; [symmetry; apply Rmax_right, amax_pos|]. rewrite IH. apply Rmax_assoc.
Qed.
Lemma amax_perm u v : Permutation u v -> amax u = amax v.
Proof.
  induction 1; simpl; try congruence. rewrite !Rmax_assoc. f_equal. apply Rmax_comm.
Qed.
Lemma amax_flat (f g : pcell -> list R) l : (forall c, In c l -> amax (f c) = amax (g c)) -> amax (flat_map f l) = amax (flat_map g l).
Proof.
  induction l as [|x l IH]; intros H; simpl; auto. rewrite !amax_app, IH by (intros; apply H; now right).
  rewrite H by now left. auto.
Qed.
Lemma fmax_R a b : fmax (Fin a) (Fin b) = Fin (Rmax a b).
Proof.
  unfold fmax. rewrite lt_R. cbn [feq ArithR xeq]. simpl. unfold Rltb, Reqb, Rmax. destruct (Rlt_dec a b), (Rle_dec a b); try reflexivity; try lra;
    destruct (Req_EM_T a a); try reflexivity; try lra; f_equal; lra.
Qed.
Lemma vnorm_inf_R v : vnorm_inf (FinV v) = Fin (amax v).
Proof.
  unfold vnorm_inf. assert (X : forall v a, 0 <= a -> fold_left (fun acc x => fmax acc (fabs x)) (FinV v) (Fin a) = Fin (Rmax a (amax v))).
  { clear. induction v as [|x v IH]; intros a Ha.
    - simpl. now rewrite Rmax_left.
    - change (FinV (x :: v)) with (Fin x :: FinV v). cbn [fold_left].
      change (fabs (Fin x)) with (Fin (Rabs x)). rewrite fmax_R, IH by (eapply Rle_trans; [exact Ha | apply Rmax_l]).
      f_equal. simpl. symmetry. apply Rmax_assoc. }
  rewrite f0_R, X by lra. f_equal. apply Rmax_right, amax_pos.
Qed.
Hypothesis QT : sin phi = 0 \/ cos phi = 0.
Lemma tq_amax c v : amax (tq c v) = amax v.
Proof.
  destruct c; auto. destruct v as [|x [|y [|]]]; auto. simpl. pose proof (sin2_cos2 phi) as S. unfold Rsqr in S.
  assert (A1 : forall a z, a * a = 1 -> Rabs (z * a) = Rabs z).
  { intros a z Ha. rewrite Rabs_mult. assert (Q : (a - 1) * (a + 1) = 0) by lra.
    apply Rmult_integral in Q as [Q|Q]; [rewrite (Rabs_right a) by lra | rewrite (Rabs_left a) by lra]; [replace a with 1 by lra | replace a with (-1) by lra]; ring. }
  destruct QT as [Z|Z]; rewrite Z in *.
  - replace (x * cos phi - y * 0) with (x * cos phi) by ring. replace (x * 0 + y * cos phi) with (y * cos phi) by ring.
    rewrite !A1 by lra. reflexivity.
  - replace (x * 0 - y * sin phi) with (- (y * sin phi)) by ring. replace (x * sin phi + y * 0) with (x * sin phi) by ring.
    rewrite Rabs_Ropp, !A1 by lra. rewrite !Rmax_assoc. f_equal. apply Rmax_comm.
Qed.
Lemma Qf_inf v : length v = n -> vnorm_inf (FinV (Qf v)) = vnorm_inf (FinV v).
Proof.
  intros L. rewrite !vnorm_inf_R. f_equal. unfold Qf.
  rewrite (amax_perm _ (flat_map (fun c => tq c (chunk c1 v c)) c1)).
  - transitivity (amax (flat_map (chunk c1 v) c1)); [|now rewrite (flat_chunk c1 nd1 v L)]. apply amax_flat. intros. apply tq_amax.
  - apply Permutation_flat_map. now symmetry.
Qed.
End C.

Lemma pe_of pinv n Q : coordinate_free pinv -> isometry n Q -> forall a b eps, symmetric n a -> symmetric n b ->
  (forall v, length v = n -> mulL b (Q v) = Q (mulL a v)) ->
  match pinv (FinM a) eps, pinv (FinM b) eps with
  | PInv x, PInv y => exists p q, x = FinM p /\ y = FinM q /\ square n p /\ square n q /\
      forall v, length v = n -> mulL q (Q v) = Q (mulL p v)
  | PErr, PErr => True
  | PPanic, PPanic => True
  | _, _ => False
  end.
Proof.
  intros H I a b eps Sa Sb E. specialize (H n Q a b eps I Sa Sb E).
  change (FinM a) with (map (map Fin) a). change (FinM b) with (map (map Fin) b).
  destruct (pinv (map (map Fin) a) eps); destruct (pinv (map (map Fin) b) eps); auto.
  destruct H as (p & q & -> & -> & L1 & R1 & L2 & R2 & X). exists p, q. unfold square. auto 10.
Qed.
Lemma sforget_sim Rl {T : Type} (m1 m2 : M xR (sres T)) h1 h2 : sim Rl (m1 h1) (m2 h2) ->
  sim Rl (mbind m1 (fun r => mret (sforget r)) h1) (mbind m2 (fun r => mret (sforget r)) h2).
Proof.
  intros [H1 H2]. rewrite !mbind_eq. destruct (m1 h1) as [i1 [o1|]]; destruct (m2 h2) as [i2 [o2|]]; simpl in *; try discriminate.
  - injection H2 as ->. split; auto.
  - split; auto.
Qed.

Lemma congruent_solve pinv sol r phi tx ty s1 s2 h1 h2 :
  valid h1 s1 -> valid h2 s2 -> refs_closed h1 s1 -> finite_data h1 s1 -> all_con_finite h1 s1 ->
  congruent r phi tx ty h1 s1 h2 s2 ->
  (phi = 0 \/ forall k, In k (s_cons s1) -> turns_with (getK h1 k) = true) ->
  coordinate_free pinv -> finite_steps sol -> stops_alike phi sol ->
  snd (solve pinv sol s2 h2) = snd (solve pinv sol s1 h1) /\
  congruent r phi tx ty (fst (solve pinv sol s1 h1)) s1 (fst (solve pinv sol s2 h2)) s2.
Proof.
  intros V1 V2 RC FD CF CG TU PC FS BT.
  assert (TU' : forall k, In k (s_cons s1) -> turnable phi (getK h1 k)).
  { intros k Hk. unfold turnable. destruct TU as [T|T]; auto. }
  destruct (Permutation_map_inv _ _ (cells_perm r phi tx ty s1 s2 h1 h2 V1 V2 CG)) as (cs & E2 & P2).
  set (n := dims (cells s1)). set (Q := Qf phi s1 cs). set (D := Df phi tx ty s1 cs). set (Rl := Rel r phi tx ty s1 s2 h1 h2).
  assert (QI : isometry n Q) by (eapply (Qf_iso r phi); eauto).
  pose proof QI as (QL & QA & QS & QD & _).
  assert (DL := Df_len phi tx ty s1 cs P2). assert (DA := Df_add phi tx ty s1 cs P2).
  assert (RD := data_R r phi tx ty s1 s2 h1 h2 V1 cs E2 P2).
  assert (RL := loss_rel r phi tx ty s1 s2 h1 h2 V1 RC CF TU').
  assert (RG := grad_rel r phi tx ty s1 s2 h1 h2 V1 V2 RC CF CG TU' cs E2 P2).
  assert (RJ := jac_rel r phi tx ty s1 s2 h1 h2 V1 V2 RC CF CG TU' cs E2 P2).
  assert (RS := set_rel r phi tx ty s1 s2 h1 h2 V1 V2 CG cs E2 P2).
  assert (R0 : Rl h1 h2) by (apply (rel_start r phi tx ty s1 s2 h1 h2 V1 FD CG cs E2 P2)).
  assert (S : sim Rl (solve pinv sol s1 h1) (solve pinv sol s2 h2)).
  { destruct sol as [P|P|P|P]; cbn [solve finite_steps stops_alike] in *; apply sforget_sim.
    - apply (gd_run_sim s1 s2 n Rl Q D); auto.
    - apply (bfgs_run_sim s1 s2 n Rl Q D); auto. apply (Qf_inf phi s1 h1 V1 cs P2 BT).
    - unfold gn_run. rewrite (ffin_inv _ FS). apply (nls_sim s1 s2 n Rl Q D) with (b := 0); auto.
      + now apply pe_of.
      + intros J RJ'. exists (mmL n (trL n J) J). split; [unfold gn_normal; now rewrite mtrans_R, mmul_R|].
        split; [now apply jtj_sym|]. intros v Lv. rewrite jtj_mul by auto.
        rewrite scl_zeros by now left. rewrite Lv. symmetry. unfold addL. apply map2_zeros_r; [|intros; ring].
        rewrite mulL_length. apply trL_length.
    - destruct FS as [F1 F2]. unfold lm_run. rewrite (ffin_inv _ F1), (ffin_inv _ F2).
      apply (nls_sim s1 s2 n Rl Q D) with (b := vx (lm_beta P)); auto.
      + now apply pe_of.
      + intros J RJ'. exists (normL (vx (lm_beta P)) n J).
        split; [unfold lm_normal, normL; now rewrite mtrans_R, mmul_R, mident_R, mscale_R, madd_R|].
        split; [now apply norm_sym|]. intros v Lv. now apply norm_mul. }
  destruct S as [(_ & _ & S1) S2]. split; auto.
Qed.
