(** * Evaluating a sketch of moderate constraints in binary64 (proofs for C50) *)
From Coq Require Import List ZArith Bool Reals Lra Lia Floats.SpecFloat.
From Verif Require Import Arith Vec Prim Cons Sketch Solve Api Spec SerdeSpec FiniteSpec ArithF
  HeapLemmas SolveLemmas BookLemmas WfLemmas DataLemmas SpecLemmas PureLemmas FloatLemmas FloatSpec FloatBound FloatCons.
Import ListNotations.

Section FF.
Variable L : libm.
Hypothesis G : good_libm L.
#[local] Instance AF : Arith spec_float := ArithF L.
Variables (h0 : heap spec_float) (s : sketch).
Hypothesis V : valid h0 s.
Hypothesis Mo : forall k, In k (s_cons s) -> moderate_con L h0 k.

Lemma sd_r h : sdeq (F:=spec_float) h h. Proof. apply sd_pre. Qed.
Definition ginv (h : heap spec_float) : Prop := forall c, In c (cells s) -> Forall (bnd 955) (prim_grad h c).
Lemma cells_ok h : sdeq h0 h -> forall c, In c (cells s) -> cell_ok h c.
Proof. intros S c Hc. apply (cell_ok_sd h0); auto. pose proof (valid_live _ _ V) as F. rewrite Forall_forall in F. auto. Qed.
Lemma all_fin g : Forall (bnd 900) g -> all_finite g = true.
Proof. intros H. unfold all_finite. apply forallb_forall. rewrite Forall_forall in H. intros x Hx. exact (bnd_fin _ _ (H x Hx)). Qed.
Lemma nth_bnd g i : Forall (bnd 900) g -> bnd 900 (nth i g f0).
Proof.
  intros H. destruct (nth_in_or_default i g f0) as [I|E]; [rewrite Forall_forall in H; auto|]. rewrite E. apply (bnd_weaken 0); [apply (b_zero L) | reflexivity].
Qed.
Lemma sat x y : bnd 955 x -> bnd 900 y -> bnd 955 (x +f y).
Proof. intros. apply (bnd_sat 955 900); auto; lia. Qed.
Lemma firstn_bnd n g : Forall (bnd 900) g -> Forall (bnd 900) (firstn n g).
Proof. intros H. rewrite Forall_forall in *. intros x Hx. apply H. rewrite <- (firstn_skipn n g). apply in_or_app; auto. Qed.
Lemma padd_ok l g h : Forall (bnd 900) g -> ginv h -> exists h', Point2_add_to_gradient l g h = (h', Val tt) /\ ginv h'.
Proof.
  intros B I. unfold Point2_add_to_gradient, mbind, massert. rewrite (all_fin g B). cbn [mret]. eexists. split; [reflexivity|].
  intros c Hc. destruct (pcell_dec c (PPoint l)) as [->|N]; [|rewrite grad_setP_other by auto; now apply I].
  specialize (I _ Hc). cbn [prim_grad] in *. rewrite getP_setP, Nat.eqb_refl. destruct (_ <? _); simpl andb; cbv iota; [|exact I]. cbn [p_gx p_gy].
  inversion I as [|? ? I1 I2]. inversion I2 as [|? ? I3 I4]. subst. repeat (apply Forall_cons; [apply sat; auto; now apply nth_bnd|]); apply Forall_nil.
Qed.
Lemma add_ok t g h : Forall (bnd 900) g -> ginv h -> exists h', add_to_gradient t g h = (h', Val tt) /\ ginv h'.
Proof.
  intros B I. assert (B1 : Forall (bnd 900) (firstn 2 g)) by now apply firstn_bnd.
  destruct t as [l|l|l]; cbn [add_to_gradient]; [now apply padd_ok | |].
  - unfold Line_add_to_gradient, mbind at 1, massert. rewrite (all_fin g B). cbn [mret]. cbv zeta. unfold mbind.
    destruct (padd_ok (l_start (getL h l)) (firstn 2 g) h B1 I) as (h1 & -> & I1). apply padd_ok; auto. apply firstn_bnd.
    clear - B. rewrite Forall_forall in *. intros x Hx. apply B. rewrite <- (firstn_skipn 2 g). apply in_or_app; auto.
  - unfold Arc_add_to_gradient, mbind at 1, massert. rewrite (all_fin g B). cbn [mret]. unfold mbind.
    destruct (padd_ok (a_center (getA h l)) (firstn 2 g) h B1 I) as (h1 & -> & I1). eexists. split; [reflexivity|].
    intros c Hc. destruct (pcell_dec c (PArc l)) as [->|N]; [|rewrite grad_setA_other by auto; now apply I1].
    specialize (I1 _ Hc). cbn [prim_grad] in *. rewrite getA_setA, Nat.eqb_refl. destruct (_ <? _); simpl andb; cbv iota; [|exact I1]. cbn [a_gr a_gsa a_gea].
    inversion I1 as [|? ? X1 X2]. inversion X2 as [|? ? X3 X4]. inversion X4 as [|? ? X5 X6]. subst. repeat (apply Forall_cons; [apply sat; auto; now apply nth_bnd|]); apply Forall_nil.
Qed.
Lemma rows_run rs : rows_ok rs -> forall h, ginv h -> exists h', mfor rs (fun tr => add_to_gradient (fst tr) (snd tr)) h = (h', Val tt) /\ ginv h'.
Proof.
  intros R. induction R as [|[t g] rs B R IH]; intros h I; cbn [mfor]; [exists h; auto|]. unfold mbind.
  destruct (add_ok t g h B I) as (h1 & E & I1). cbn [fst snd]. rewrite E. now apply IH.
Qed.
Lemma update_ok k h : In k (s_cons s) -> sdeq h0 h -> ginv h -> exists h', update_gradient (getK h k) h = (h', Val tt) /\ ginv h' /\ sdeq h0 h'.
Proof.
  intros Hk S I. assert (EK : getK h k = getK h0 k) by (apply struct_getK, S). assert (R : rows_ok (grad_rows h0 (getK h0 k))) by exact (proj1 (con_bounded L G h0 k (Mo k Hk))).
  rewrite EK. pose proof (update_sd (getK h0 k) h) as U. unfold update_gradient in *. rewrite (sdg_rows _ _ (getK h0 k) S) in *.
  destruct (rows_run _ R h I) as (h1 & E & I1). rewrite E in U |- *. exists h1. split; [reflexivity|]. split; auto. eapply sd_pre; [exact S | exact U].
Qed.
Lemma zero_inv h : sdeq h0 h -> ginv (zero_all s h) /\ sdeq h0 (zero_all s h).
Proof.
  intros S. split; [|eapply sd_pre; [exact S | apply zero_all_sd]]. intros c Hc. destruct (zero_list (cells s) h (cells_ok h S)) as [Z _].
  unfold zero_all. rewrite (Z c Hc). apply Forall_forall. intros x Hx. apply repeat_spec in Hx. subst x. apply (bnd_weaken 0); [apply (b_zero L) | reflexivity].
Qed.
Lemma updates_ok ks : incl ks (s_cons s) -> forall h, sdeq h0 h -> ginv h ->
  exists h', mfor ks (fun k h => update_gradient (getK h k) h) h = (h', Val tt) /\ ginv h' /\ sdeq h0 h'.
Proof.
  induction ks as [|k ks IH]; intros Hi h S I; cbn [mfor]; [exists h; auto|]. unfold mbind.
  destruct (update_ok k h) as (h1 & -> & I1 & S1); auto; [apply Hi; now left|]. apply IH; auto. intros x Hx. apply Hi. now right.
Qed.
Lemma stored_fin h : ginv h -> Forall fin (stored_gradient s h).
Proof.
  intros I. apply Forall_forall. intros x Hx. unfold stored_gradient in Hx. apply in_flat_map in Hx as (c & Hc & Hx). specialize (I c Hc).
  rewrite Forall_forall in I. exact (bnd_fin _ _ (I x Hx)).
Qed.
Lemma gradient_ok : exists h' g, get_gradient s h0 = (h', Val g) /\ Forall fin g.
Proof.
  destruct (zero_inv h0 (sd_r h0)) as [I0 S0]. destruct (updates_ok (s_cons s) (incl_refl _) _ S0 I0) as (h1 & E & I1 & S1).
  exists h1, (stored_gradient s h1). split; [|now apply stored_fin]. unfold get_gradient, mbind at 1. rewrite E. unfold mbind, massert.
  replace (forallb (fun c => all_finite (prim_grad h1 c)) (cells s)) with true; [reflexivity|]. symmetry. apply forallb_forall. intros c Hc.
  apply forallb_forall. intros x Hx. specialize (I1 c Hc). rewrite Forall_forall in I1. exact (bnd_fin _ _ (I1 x Hx)).
Qed.
Lemma jacobian_ok_rows ks : incl ks (s_cons s) -> forall h, sdeq h0 h -> exists h' J, jacobian_rows s ks h = (h', Val J) /\ Forall (Forall fin) J.
Proof.
  induction ks as [|k ks IH]; intros Hi h S; cbn [jacobian_rows]; [exists h, []; split; [reflexivity | constructor]|].
  destruct (zero_inv h S) as [I0 S0]. destruct (update_ok k _ (Hi k (or_introl eq_refl)) S0 I0) as (h1 & E & I1 & S1). unfold mbind. rewrite E.
  destruct (IH (fun x Hx => Hi x (or_intror Hx)) h1 S1) as (h2 & J & EJ & FJ). rewrite EJ. eexists. eexists. split; [reflexivity|]. constructor; auto. now apply stored_fin.
Qed.
Lemma losses_ok : Forall fin (get_loss_per_constraint h0 s) /\ fin (get_loss h0 s).
Proof.
  assert (B : forall k, In k (s_cons s) -> bnd 900 (loss_value h0 (getK h0 k))) by (intros k Hk; apply (con_bounded L G h0 k (Mo k Hk))).
  split.
  - unfold get_loss_per_constraint. apply Forall_forall. intros x Hx. apply in_map_iff in Hx as (k & <- & Hk). exact (bnd_fin _ _ (B k Hk)).
  - unfold get_loss. assert (I : bnd 955 (f0 : spec_float)) by (apply (bnd_weaken 0); [apply (b_zero L) | reflexivity]). revert I. clear Mo. generalize (f0 : spec_float).
    induction (s_cons s) as [|k ks IH]; intros x I; cbn [fold_left]; [exact (bnd_fin _ _ I)|].
    apply IH; [intros; apply B; now right | apply sat; auto; apply B; now left].
Qed.
Lemma C50_lemma : (exists h' g, get_gradient s h0 = (h', Val g) /\ Forall fin g) /\ (exists h' J, get_jacobian s h0 = (h', Val J) /\ Forall (Forall fin) J) /\
  Forall fin (get_loss_per_constraint h0 s) /\ fin (get_loss h0 s).
Proof. split; [apply gradient_ok|]. split; [apply (jacobian_ok_rows (s_cons s) (incl_refl _) h0 (sd_r h0)) | apply losses_ok]. Qed.
End FF.
