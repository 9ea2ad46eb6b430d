(** * Lemmas for C94 *)
From Coq Require Import List ZArith NArith Arith Bool Lia.
From Verif Require Import Arith Vec Prim Cons Sketch Solve Api Spec
  HeapLemmas SolveLemmas BookLemmas WfLemmas DataLemmas SpecLemmas PureLemmas GradLemmas SearchLemmas ResumeSpec.
Import ListNotations.

Section L.
Context {F : Type} {A : Arith F}.
Variable s : sketch.
(** ** The solver reads nothing but data and structure *)
Definition T (h1 h2 : heap F) : Prop := valid h1 s /\ sdeq h1 h2.
Definition rel {U} (m1 m2 : M F U) : Prop := forall h1 h2, T h1 h2 -> snd (m1 h1) = snd (m2 h2) /\ T (fst (m1 h1)) (fst (m2 h2)).
Lemma rel_ret {U} (x : U) : rel (mret x) (mret x). Proof. intros h1 h2 H. split; auto. Qed.
Lemma rel_panic {U} : rel (@mpanic F U) mpanic. Proof. intros h1 h2 H. split; auto. Qed.
Lemma rel_assert b : rel (massert b) (massert b). Proof. destruct b; [apply rel_ret | apply rel_panic]. Qed.
Lemma rel_bind {U V} (m1 m2 : M F U) (f1 f2 : U -> M F V) : rel m1 m2 -> (forall x, rel (f1 x) (f2 x)) -> rel (mbind m1 f1) (mbind m2 f2).
Proof.
  intros Hm Hf h1 h2 H. destruct (Hm h1 h2 H) as [E G]. unfold mbind. destruct (m1 h1) as [k1 o1], (m2 h2) as [k2 o2]. simpl in *. subst o2.
  destruct o1; [now apply Hf | split; auto].
Qed.
Lemma grad_T : rel (get_gradient s) (get_gradient s).
Proof.
  intros h1 h2 [V E]. destruct (gradient_rel s h1 h2) as [B1 [B2 _]]; auto.
  { intros c Hc. apply (v_live _ _ V). now apply (valid_reg _ _ _ V). }
  split; auto. split; auto. eapply valid_struct; [exact V|]. apply (get_gradient_sd s h1).
Qed.
Lemma rel_valid {U} (m : M F U) h : rel m m -> valid h s -> valid (fst (m h)) s.
Proof. intros Hm V. apply (Hm h h). split; auto. apply sd_refl'. Qed.
Lemma sd_nil (h1 h2 : heap F) : sdeq h1 h2 <-> grel [] h1 h2.
Proof. split; [intros H; split; auto; intros c [] | now intros []]. Qed.
Lemma sdeq_setC (h1 h2 : heap F) l x1 x2 : sdeq h1 h2 -> c_center x1 = c_center (getC h1 l) -> c_center x2 = c_center (getC h2 l) -> c_radius x1 = c_radius x2 ->
  sdeq (setC h1 l x1) (setC h2 l x2).
Proof.
  intros [Hs Hdat] C1 C2 E1. pose proof Hs as (H1&H2&H3&H4&H5&H6&H7). split.
  - destruct struct_pre as [_ Tr]. eapply Tr; [|eapply Tr; [exact Hs | apply struct_setC; auto]].
    destruct (struct_setC h1 l x1 C1) as (S1&S2&S3&S4&S5&S6&S7).
    repeat split; auto; intros; try (symmetry; apply S6); symmetry; apply S7.
  - intros c _. destruct (pcell_dec c (PCircle l)) as [->|Hne].
    + simpl. rewrite !getC_setC, Nat.eqb_refl, H5. destruct (_ <? _); simpl; [now rewrite E1|]. now apply (Hdat (PCircle l)).
    + rewrite !data_setC_other by auto. now apply Hdat.
Qed.
Lemma pset_T c v : rel (prim_set_data c v) (prim_set_data c v).
Proof.
  intros h1 h2 [V E].
  assert (G : snd (prim_set_data c v h1) = snd (prim_set_data c v h2) /\ sdeq (fst (prim_set_data c v h1)) (fst (prim_set_data c v h2))).
  { destruct c as [l|l|l|l]; simpl; auto; unfold Point2_set_data, Arc_set_data, Circle_set_data, mbind, massert; destruct (_ && _); cbn [mret fst snd]; auto; (split; [reflexivity|]).
    - apply sd_nil. apply grel_setP; [now apply sd_nil | reflexivity | reflexivity | intros []].
    - apply sd_nil. apply grel_setA; try reflexivity; [now apply sd_nil | intros []].
    - now apply sdeq_setC. }
  destruct G as [G1 G2]. split; auto. split; auto. eapply valid_struct; [exact V|]. apply (set_struct c v h1).
Qed.
Lemma len_T (h1 h2 : heap F) c : length (prim_data h1 c) = length (prim_data h2 c). Proof. now destruct c. Qed.
Lemma set_T d : rel (set_data s d) (set_data s d).
Proof.
  intros k1 k2 HE. unfold set_data.
  assert (E : get_n_dofs k1 s = get_n_dofs k2 s). { unfold get_n_dofs. generalize 0. clear HE. induction (cells s); simpl; auto. intros n. now rewrite (len_T k1 k2), IHl. }
  rewrite E. refine (rel_bind _ _ _ _ (rel_assert _) _ k1 k2 HE). intros _. clear. revert d. induction (cells s) as [|c cs IH]; intros d; cbn [set_data_loop]; [apply rel_ret|].
  intros h1 h2 H. cbv zeta. rewrite (len_T h1 h2). refine (rel_bind _ _ _ _ (pset_T _ _) _ h1 h2 H). intros _. apply IH.
Qed.
Lemma data_T h1 h2 : T h1 h2 -> get_data h1 s = get_data h2 s. Proof. intros [_ E]. symmetry. now apply sd_get_data. Qed.
Lemma loss_T h1 h2 : T h1 h2 -> get_loss h1 s = get_loss h2 s. Proof. intros [_ E]. symmetry. now apply sd_get_loss. Qed.
Lemma lsl_T x0 dir loss m curv n : forall alpha, rel (ls_loop s x0 dir loss m curv n alpha) (ls_loop s x0 dir loss m curv n alpha).
Proof.
  induction n as [|n IH]; intros alpha; cbn [ls_loop]; [apply rel_ret|]. apply rel_bind; [apply set_T|]. intros _ h1 h2 H.
  rewrite (loss_T h1 h2 H). cbv zeta. destruct (fle _ _); [|now apply IH].
  refine (rel_bind _ _ _ _ grad_T _ h1 h2 H). intros g. destruct (fge _ _); [apply rel_ret | apply IH].
Qed.
Lemma ls_T dir g : rel (line_search_wolfe s dir g) (line_search_wolfe s dir g).
Proof.
  intros h1 h2 H. unfold line_search_wolfe. rewrite (loss_T h1 h2 H), (data_T h1 h2 H). cbv zeta.
  destruct (fge _ _); [split; auto | now apply lsl_T].
Qed.
Lemma gdl_T P n : forall i g gn l, rel (gd_loop s P n i g gn l) (gd_loop s P n i g gn l).
Proof.
  induction n as [|n IH]; intros; cbn [gd_loop]; [apply rel_ret|]. destruct (flt _ _); [apply rel_ret|]. destruct (flt _ _); [apply rel_ret|].
  intros h1 h2 H. rewrite (data_T h1 h2 H). cbv zeta. refine (rel_bind _ _ _ _ (ls_T _ _) _ h1 h2 H). intros [a|e]; [|apply rel_ret].
  apply rel_bind; [apply set_T|]. intros _ k1 k2 HK. rewrite (loss_T k1 k2 HK).
  refine (rel_bind _ _ _ _ grad_T _ k1 k2 HK). intros q. apply IH.
Qed.
(** ** Counting on *)
Definition plus (i : nat) (r : heap F * out (sres nat)) := (fst r, after i (snd r)).
Lemma bind_plus {U} i (m : M F U) f f' h : (forall x h, f' x h = plus i (f x h)) -> mbind m f' h = plus i (mbind m f h).
Proof. intros Hf. unfold mbind. destruct (m h) as [k [x|]]; auto. Qed.
Lemma gdl_shift P n : forall i j g gn l h, gd_loop s P n (i + j) g gn l h = plus i (gd_loop s P n j g gn l h).
Proof.
  induction n as [|n IH]; intros; cbn [gd_loop]; [reflexivity|]. destruct (flt _ _); [reflexivity|]. destruct (flt _ _); [reflexivity|].
  cbv zeta. apply bind_plus. intros [a|e] k; [|reflexivity]. apply bind_plus. intros _ k1. apply bind_plus. intros q k2. rewrite plus_n_Sm. apply IH.
Qed.
(** ** Splitting the budget *)
Lemma gd_split P a b : forall i g h, valid h s -> snd (get_gradient s h) = Val g ->
  match gd_loop s P a i g (vnorm g) (get_loss h s) h with
  | (h1, Val (SOk j)) => exists g1, valid h1 s /\ snd (get_gradient s h1) = Val g1 /\
      gd_loop s P (a + b) i g (vnorm g) (get_loss h s) h = gd_loop s P b j g1 (vnorm g1) (get_loss h1 s) h1
  | r => gd_loop s P (a + b) i g (vnorm g) (get_loss h s) h = r
  end.
Proof.
  induction a as [|a IH]; intros i g h V Eg; cbn [gd_loop plus].
  - exists g. auto.
  - destruct (flt (vnorm g) _) eqn:T1; [|destruct (flt (get_loss h s) _) eqn:T2].
    + exists g. split; [exact V|]. split; [exact Eg|]. cbn [Nat.add gd_loop]. rewrite T1. destruct b; cbn [gd_loop]; [|rewrite T1]; reflexivity.
    + exists g. split; [exact V|]. split; [exact Eg|]. cbn [Nat.add gd_loop]. rewrite T1, T2. destruct b; cbn [gd_loop]; [|rewrite T1, T2]; reflexivity.
    + cbn [Nat.add gd_loop]. rewrite T1, T2. cbv zeta. unfold mbind.
      pose proof (rel_valid _ _ (ls_T (vneg g) g) V) as V1. destruct (line_search_wolfe s (vneg g) g h) as [h1 [[al|e]|]]; cbn [fst] in V1; try reflexivity.
      pose proof (rel_valid _ _ (set_T (vaxpy al (vneg g) f1 (get_data h s))) V1) as V2. destruct (set_data s _ h1) as [h2 [[]|]]; cbn [fst] in V2; [|reflexivity].
      pose proof (rel_valid _ _ grad_T V2) as V3. pose proof (proj1 (C17_twice_lemma h2 s V2)) as TW. pose proof (get_gradient_sd s h2) as SD.
      destruct (get_gradient s h2) as [h3 [q|]]; cbn [fst snd] in *; [|reflexivity].
      rewrite <- (sd_get_loss _ _ s SD). apply IH; auto.
Qed.
Lemma gd_par P c n : forall it g gn l h, gd_loop s (mkGD c (gd_min_loss P) (gd_min_grad P)) n it g gn l h = gd_loop s P n it g gn l h.
Proof.
  induction n as [|n IH]; intros; cbn [gd_loop gd_min_loss gd_min_grad]; auto. destruct (flt _ _); auto. destruct (flt _ _); auto. cbv zeta. unfold mbind.
  destruct (line_search_wolfe _ _ _ _) as [? [[]|]]; auto. destruct (set_data _ _ _) as [? [|]]; auto. destruct (get_gradient _ _) as [? [|]]; auto.
Qed.
Theorem C94_gd_lemma P a b h : valid h s -> gd_max P = (a + b)%N ->
  match gd_run s (gd_budget a P) h with
  | (h1, Val (SOk i)) => snd (gd_run s P h) = after i (snd (gd_run s (gd_budget b P) h1)) /\ same_state (fst (gd_run s P h)) (fst (gd_run s (gd_budget b P) h1))
  | r => gd_run s P h = r
  end.
Proof.
  intros V HM. unfold gd_run, gd_budget. cbn [gd_max]. rewrite HM, N2Nat.inj_add.
  unfold mbind. pose proof (rel_valid _ _ grad_T V) as V0. pose proof (proj1 (C17_twice_lemma h s V)) as TW.
  destruct (get_gradient s h) as [h0 [g|]]; cbn [fst snd] in *; [|reflexivity]. rewrite gd_par.
  pose proof (gd_split P (N.to_nat a) (N.to_nat b) 0 g h0 V0 TW) as G.
  destruct (gd_loop s P (N.to_nat a) 0 g (vnorm g) (get_loss h0 s) h0) as [h1 [[i|e]|]]; auto.
  destruct G as (g1 & V1 & G1 & ->). pose proof (get_gradient_sd s h1) as SD.
  destruct (get_gradient s h1) as [h2 o2]. cbn [fst snd] in *. subst o2. rewrite gd_par, (sd_get_loss _ _ s SD).
  destruct (gdl_T P (N.to_nat b) 0 g1 (vnorm g1) (get_loss h1 s) h1 h2 (conj V1 SD)) as [E [_ S]].
  rewrite <- (Nat.add_0_r i), gdl_shift. cbn [plus fst snd]. rewrite Nat.add_0_r, E. split; [reflexivity|]. now apply sdeq_iff.
Qed.
(** ** Gauss-Newton and Levenberg-Marquardt *)
Lemma nls_shift pinv nm ml eps st n : forall i j l h, nls_loop pinv s nm ml eps st n (i + j) l h = plus i (nls_loop pinv s nm ml eps st n j l h).
Proof.
  induction n as [|n IH]; intros; cbn [nls_loop]; [reflexivity|]. destruct (negb _); [reflexivity|]. cbv zeta. apply bind_plus. intros jac k.
  destruct (nls_step _ _ _ _ _ _ _); try reflexivity. apply bind_plus. intros _ k1. rewrite plus_n_Sm. apply IH.
Qed.
Lemma nls_split pinv nm ml eps st a b : fgt finf ml = true -> forall i l h,
  nls_loop pinv s nm ml eps st (a + b) i l h = nls_loop pinv s nm ml eps st a i l h \/
  exists h1, nls_loop pinv s nm ml eps st a i l h = (h1, Val (SOk (i + a))) /\ nls_loop pinv s nm ml eps st (a + b) i l h = nls_loop pinv s nm ml eps st b (i + a) finf h1.
Proof.
  intros HF. induction a as [|a IH]; intros i l h.
  - cbn [nls_loop Nat.add]. rewrite Nat.add_0_r. destruct b as [|b]; [left; reflexivity|]. cbn [nls_loop]. destruct (fgt l ml); cbn [negb]; [|now left].
    right. exists h. split; [reflexivity|]. rewrite HF. reflexivity.
  - cbn [nls_loop Nat.add]. destruct (fgt l ml); cbn [negb]; [|now left]. cbv zeta. unfold mbind.
    destruct (get_jacobian s h) as [h1 [jac|]]; [|now left]. destruct (nls_step _ _ _ _ _ _ _) as [d| |]; [|now left|now left].
    destruct (set_data s d h1) as [h2 [[]|]]; [|now left]. rewrite <- plus_n_Sm. apply (IH (S i)).
Qed.
Lemma nls_never pinv nm ml eps st n i h : fgt finf ml = false -> nls_loop pinv s nm ml eps st n i finf h = (h, Val (SOk i)).
Proof. intros E. destruct n; cbn [nls_loop]; rewrite ?E; reflexivity. Qed.
Lemma C94_nls_lemma pinv nm ml eps st a b h :
  nls_loop pinv s nm ml eps st (a + b) 0 finf h = nls_loop pinv s nm ml eps st a 0 finf h \/
  exists h1, nls_loop pinv s nm ml eps st a 0 finf h = (h1, Val (SOk a)) /\ nls_loop pinv s nm ml eps st (a + b) 0 finf h = plus a (nls_loop pinv s nm ml eps st b 0 finf h1).
Proof.
  destruct (fgt finf ml) eqn:E; [|left; now rewrite !nls_never]. destruct (nls_split pinv nm ml eps st a b E 0 finf h) as [G|(h1 & G1 & G2)]; [now left|right].
  exists h1. split; auto. rewrite G2. rewrite <- (nls_shift pinv nm ml eps st b a 0), Nat.add_0_r. reflexivity.
Qed.
Lemma C94_gn_lemma pinv P a b h : gn_max P = (a + b)%N ->
  gn_run pinv s P h = gn_run pinv s (gn_budget a P) h \/
  exists h1, gn_run pinv s (gn_budget a P) h = (h1, Val (SOk (N.to_nat a))) /\
    gn_run pinv s P h = (fst (gn_run pinv s (gn_budget b P) h1), after (N.to_nat a) (snd (gn_run pinv s (gn_budget b P) h1))).
Proof. intros E. unfold gn_run, gn_budget. cbn [gn_max gn_min_loss gn_eps gn_step]. rewrite E, N2Nat.inj_add. apply C94_nls_lemma. Qed.
Lemma C94_lm_lemma pinv P a b h : lm_max P = (a + b)%N ->
  lm_run pinv s P h = lm_run pinv s (lm_budget a P) h \/
  exists h1, lm_run pinv s (lm_budget a P) h = (h1, Val (SOk (N.to_nat a))) /\
    lm_run pinv s P h = (fst (lm_run pinv s (lm_budget b P) h1), after (N.to_nat a) (snd (lm_run pinv s (lm_budget b P) h1))).
Proof. intros E. unfold lm_run, lm_budget. cbn [lm_max lm_min_loss lm_eps lm_step lm_beta]. rewrite E, N2Nat.inj_add. apply C94_nls_lemma. Qed.
End L.
