(** * Exact arithmetic: the gradient and Jacobian of a sketch (proofs for C15, C16, C18) *)
From Coq Require Import Reals List Lra Lia Bool ZArith NArith Arith FunctionalExtensionality.
From Coquelicot Require Import Coquelicot.
From Verif Require Import Arith Vec Prim Cons Sketch Solve Api Spec ArithR ExactSpec
  HeapLemmas SolveLemmas BookLemmas WfLemmas DataLemmas SpecLemmas ExactLemmas DerivLemmas.
Import ListNotations.
Local Open Scope R_scope.

(** ** Dependence on data and structure only *)
Lemma sd_cfg h h' : sdeq h h' -> cfg_of h' = cfg_of h.
Proof.
  intros [_ Hd]. unfold cfg_of. f_equal; apply functional_extensionality; intros l.
  - specialize (Hd (PPoint l) I). simpl in Hd. injection Hd as E1 E2. now rewrite E1.
  - specialize (Hd (PPoint l) I). simpl in Hd. injection Hd as E1 E2. now rewrite E2.
  - specialize (Hd (PArc l) I). simpl in Hd. injection Hd as E1 E2 E3. now rewrite E1.
  - specialize (Hd (PArc l) I). simpl in Hd. injection Hd as E1 E2 E3. now rewrite E2.
  - specialize (Hd (PArc l) I). simpl in Hd. injection Hd as E1 E2 E3. now rewrite E3.
Qed.
Lemma struct_center h h' a : struct_eq (F:=xR) h h' -> a_center (getA h' a) = a_center (getA h a).
Proof. intros (_&_&_&_&_&H&_). apply H. Qed.
Lemma struct_lossR g h h' c : struct_eq h h' -> lossR g h' c = lossR g h c.
Proof.
  intros H. unfold lossR. destruct c; cbn [residual2]; unfold dirR, end_pt, start_pt;
  rewrite ?(struct_getL _ _ _ H), ?(struct_center _ _ _ H); auto.
Qed.
Lemma struct_deps h h' c : struct_eq h h' -> deps h' c = deps h c.
Proof.
  intros H. unfold deps. apply flat_map_ext. intros r. now rewrite (struct_refs _ _ _ H).
Qed.
Lemma sd_pdata {F} `{Arith F} (h h' : heap F) l : sdeq h h' -> pdata h' l = pdata h l.
Proof.
  intros [_ Hd]. specialize (Hd (PPoint l) I). simpl in Hd. injection Hd as E1 E2. unfold pdata, p_data. now rewrite E1, E2.
Qed.
Lemma sd_getL {F} `{Arith F} (h h' : heap F) l : sdeq h h' -> getL h' l = getL h l.
Proof. intros [Hs _]. now apply struct_getL. Qed.
Lemma sd_arc {F} `{Arith F} (h h' : heap F) a : sdeq h h' ->
  a_center (getA h' a) = a_center (getA h a) /\ a_radius (getA h' a) = a_radius (getA h a) /\
  a_sa (getA h' a) = a_sa (getA h a) /\ a_ea (getA h' a) = a_ea (getA h a).
Proof.
  intros [(_&_&_&_&_&Hs&_) Hd]. specialize (Hd (PArc a) I). simpl in Hd. injection Hd as E1 E2 E3.
  destruct (Hs a). auto.
Qed.
Lemma sd_start {F} `{Arith F} (h h' : heap F) l : sdeq h h' -> line_start h' l = line_start h l.
Proof. intros Hd. unfold line_start. now rewrite (sd_getL _ _ _ Hd), (sd_pdata _ _ _ Hd). Qed.
Lemma sd_end {F} `{Arith F} (h h' : heap F) l : sdeq h h' -> line_end h' l = line_end h l.
Proof. intros Hd. unfold line_end. now rewrite (sd_getL _ _ _ Hd), (sd_pdata _ _ _ Hd). Qed.
Lemma sd_arc_end {F} `{Arith F} (h h' : heap F) a : sdeq h h' ->
  arc_end_point h' (getA h' a) = arc_end_point h (getA h a) /\
  arc_start_point h' (getA h' a) = arc_start_point h (getA h a) /\
  arc_end_point_gradient (getA h' a) = arc_end_point_gradient (getA h a) /\
  arc_start_point_gradient (getA h' a) = arc_start_point_gradient (getA h a).
Proof.
  intros Hd. destruct (sd_arc _ _ a Hd) as (E0 & E1 & E2 & E3).
  unfold arc_end_point, arc_start_point, arc_end_point_gradient, arc_start_point_gradient.
  pose proof (sd_pdata _ _ (a_center (getA h a)) Hd) as P. unfold pdata, p_data in P. injection P as Px Py.
  rewrite E0, E1, E2, E3, Px, Py. auto.
Qed.
Lemma sd_loss {F} `{Arith F} (h h' : heap F) c : sdeq h h' -> loss_value h' c = loss_value h c.
Proof.
  intros Hd. destruct c; cbn [loss_value]; unfold current_angle, current_distance, current_hdistance, current_vdistance;
  rewrite ?(sd_pdata _ _ _ Hd), ?(sd_start _ _ _ Hd), ?(sd_end _ _ _ Hd); auto;
  destruct (sd_arc_end _ _ a Hd) as (E1 & E2 & _); rewrite ?E1, ?E2; auto.
Qed.
Lemma sd_rows {F} `{Arith F} (h h' : heap F) c : sdeq h h' -> grad_rows h' c = grad_rows h c.
Proof.
  intros Hd. destruct c; cbn [grad_rows];
  rewrite ?(sd_pdata _ _ _ Hd), ?(sd_start _ _ _ Hd), ?(sd_end _ _ _ Hd); auto;
  destruct (sd_arc_end _ _ a Hd) as (E1 & E2 & E3 & E4); rewrite ?E1, ?E2, ?E3, ?E4; auto.
Qed.
Lemma sd_get_loss {F} `{Arith F} (h h' : heap F) s : sdeq h h' -> get_loss h' s = get_loss h s.
Proof.
  intros Hd. unfold get_loss. generalize f0. induction (s_cons s) as [|k ks IH]; simpl; intros a; auto.
  rewrite IH. f_equal. f_equal. rewrite (struct_getK _ _ _ (proj1 Hd)). now apply sd_loss.
Qed.
Lemma sd_get_data {F} `{Arith F} (h h' : heap F) s : sdeq h h' -> get_data h' s = get_data h s.
Proof.
  intros [_ Hd]. unfold get_data. apply flat_map_ext. intros c. now apply Hd.
Qed.
Lemma sd_con_finite h h' c : sdeq h h' -> con_finite h c -> con_finite h' c.
Proof.
  intros [Hs Hd] [H1 H2]. split; auto. intros d Hin. rewrite (struct_deps _ _ _ Hs) in Hin.
  rewrite Hd by exact I. auto.
Qed.

(** ** Accumulating rows *)
Definition fin_rows (h : heap xR) (c : con xR) : list (gtarget * list R) :=
  map (fun tr => (fst tr, map vx (snd tr))) (grad_rows h c).
Definition wfrow (tr : gtarget * list R) : Prop :=
  length (snd tr) = match fst tr with GPoint _ => 2%nat | GLine _ => 4%nat | GArc _ => 5%nat end.

Lemma map_vx_Fin l : map vx (map Fin l) = l.
Proof. induction l; simpl; congruence. Qed.
Lemma rowsR_wf g h c : List.Forall wfrow (rowsR g h c).
Proof. destruct c; simpl; repeat constructor. Qed.
Lemma fin_rows_ok h c : con_finite h c -> eqlen_ok (cfg_of h) h c ->
  grad_rows h c = map toFin (fin_rows h c) /\ List.Forall wfrow (fin_rows h c) /\
  (active (cfg_of h) h c -> fin_rows h c = rowsR (cfg_of h) h c) /\ (~ active (cfg_of h) h c -> fin_rows h c = []).
Proof.
  intros Hf He. destruct (grad_rows_R h c Hf He) as [H1 H2].
  assert (X : forall rs, grad_rows h c = map toFin rs -> fin_rows h c = rs).
  { intros rs E. unfold fin_rows. rewrite E. clear E. induction rs as [|[t r] rs IH]; simpl; auto.
    rewrite map_vx_Fin. now f_equal. }
  destruct (Classical_Prop.classic (active (cfg_of h) h c)) as [A|A].
  - specialize (H1 A). rewrite (X _ H1). repeat split; auto; [apply rowsR_wf | tauto].
  - specialize (H2 A). assert (E := X [] ltac:(auto)). rewrite E. repeat split; auto. tauto.
Qed.

Section Acc.
Variable cs : list pcell.
Variable D : cfg.
Hypothesis Hnd : NoDup cs.

Definition off0 : Prop :=
  (forall l, ~ In (PPoint l) cs -> cx D l = 0 /\ cy D l = 0) /\
  (forall a, ~ In (PArc a) cs -> cr D a = 0 /\ csa D a = 0 /\ cea D a = 0).
Hypothesis Hoff : off0.

Definition gfin (h : heap xR) : Prop :=
  forall c, In c cs -> cell_ok h c /\ all_finite (prim_grad h c) = true /\
    match c with PCircle l => c_gr (getC h l) = Fin 0 | _ => True end.
Definition cellpair (h : heap xR) (c : pcell) : R :=
  match c with
  | PPoint l => vx (p_gx (getP h l)) * cx D l + vx (p_gy (getP h l)) * cy D l
  | PArc a => vx (a_gr (getA h a)) * cr D a + vx (a_gsa (getA h a)) * csa D a + vx (a_gea (getA h a)) * cea D a
  | _ => 0
  end.
Definition Phi (h : heap xR) : R := sumR (map (cellpair h) cs).

Lemma sum_same (f f' : pcell -> R) l : (forall c, In c l -> f' c = f c) -> sumR (map f' l) = sumR (map f l).
Proof.
  intros H. induction l as [|c l IH]; simpl; auto. rewrite IH by (intros; apply H; now right).
  rewrite H by now left. reflexivity.
Qed.
Lemma sum_upd (f f' : pcell -> R) x k l : NoDup l ->
  (forall c, In c l -> c <> x -> f' c = f c) -> (In x l -> f' x = f x + k) -> (~ In x l -> k = 0) ->
  sumR (map f' l) = sumR (map f l) + k.
Proof.
  intros Hn H1 H2 H3. destruct (in_dec pcell_dec x l) as [Hi|Hi].
  - clear H3. induction l as [|c l IH]; [destruct Hi|]. inversion Hn; subst. simpl.
    destruct (pcell_dec c x) as [->|E].
    + rewrite H2 by now left. rewrite (sum_same f f'); [lra|].
      intros c Hc. apply H1; [now right|]. intros ->; tauto.
    + destruct Hi as [Hi|Hi]; [congruence|]. rewrite IH; auto.
      * rewrite H1; auto; [lra | now left].
      * intros c' Hc'; apply H1; now right.
      * intros _. apply H2. now right.
  - rewrite (H3 Hi), Rplus_0_r. apply sum_same. intros c Hc. apply H1; auto. intros ->; tauto.
Qed.

Lemma padd_ok h l a b : gfin h ->
  exists h', Point2_add_to_gradient l [Fin a; Fin b] h = (h', Val tt) /\ gfin h' /\
    Phi h' = Phi h + (a * cx D l + b * cy D l).
Proof.
  intros Hg. unfold Point2_add_to_gradient, mbind, massert. simpl all_finite. cbn [mret].
  eexists. split; [reflexivity|]. cbn [nth].
  set (p := mkPoint _ _ _ _).
  assert (G : forall c, c <> PPoint l -> prim_grad (setP h l p) c = prim_grad h c) by (intros; now apply grad_setP_other).
  assert (In (PPoint l) cs -> getP (setP h l p) l = p /\ p_gx (getP h l) = Fin (vx (p_gx (getP h l))) /\ p_gy (getP h l) = Fin (vx (p_gy (getP h l)))) as K.
  { intros Hi. destruct (Hg _ Hi) as (C1 & C2 & _). simpl in C1, C2.
    rewrite getP_setP, Nat.eqb_refl. apply Nat.ltb_lt in C1. rewrite C1. simpl. split; auto.
    apply andb_true_iff in C2 as [C2 C3]. apply andb_true_iff in C3 as [C3 _]. split; now apply ffin_inv. }
  split.
  - intros c Hc. destruct (Hg c Hc) as (C1 & C2 & C3). split; [|split].
    + destruct c; simpl in *; rewrite ?lset_length; auto.
    + destruct (pcell_dec c (PPoint l)) as [->|E]; [|rewrite G; auto].
      destruct (K Hc) as (E1 & E2 & E3). simpl. rewrite E1. unfold p; simpl. rewrite E2, E3. reflexivity.
    + destruct c; auto.
  - apply (sum_upd _ _ (PPoint l)); auto.
    + intros c Hc Hne. specialize (G c Hne). destruct c; simpl in *; auto.
      injection G as E1 E2. now rewrite E1, E2.
    + intros Hi. destruct (K Hi) as (E1 & E2 & E3). simpl. rewrite E1. unfold p; simpl. rewrite E2, E3. simpl. ring.
    + intros Hi. destruct Hoff as [O _]. destruct (O l Hi) as [-> ->]. ring.
Qed.

Lemma arcadd_ok h l a b c : gfin h ->
  let x := getA h l in
  let h' := setA h l (mkArc (a_center x) (a_radius x) (a_sa x) (a_ea x)
                       (a_gr x +f Fin a) (a_gsa x +f Fin b) (a_gea x +f Fin c) (a_cw x)) in
  gfin h' /\ Phi h' = Phi h + (a * cr D l + b * csa D l + c * cea D l).
Proof.
  intros Hg x. set (p := mkArc _ _ _ _ _ _ _ _). intros h'.
  assert (G : forall c, c <> PArc l -> prim_grad h' c = prim_grad h c) by (intros; now apply grad_setA_other).
  assert (In (PArc l) cs -> getA h' l = p /\ a_gr x = Fin (vx (a_gr x)) /\ a_gsa x = Fin (vx (a_gsa x)) /\ a_gea x = Fin (vx (a_gea x))) as K.
  { intros Hi. destruct (Hg _ Hi) as (C1 & C2 & _). simpl in C1, C2. unfold h'.
    rewrite getA_setA, Nat.eqb_refl. apply Nat.ltb_lt in C1. rewrite C1. simpl. split; auto.
    repeat (apply andb_true_iff in C2 as [? C2]). repeat split; now apply ffin_inv. }
  split.
  - intros c' Hc. destruct (Hg c' Hc) as (C1 & C2 & C3). split; [|split].
    + unfold h'. destruct c'; simpl in *; rewrite ?lset_length; auto.
    + destruct (pcell_dec c' (PArc l)) as [->|E]; [|rewrite G; auto].
      destruct (K Hc) as (E1 & E2 & E3 & E4). simpl. rewrite E1. unfold p; simpl. rewrite E2, E3, E4. reflexivity.
    + destruct c'; auto.
  - apply (sum_upd _ _ (PArc l)); auto.
    + intros c' Hc Hne. specialize (G c' Hne). destruct c'; simpl in *; auto.
      injection G as E1 E2 E3. now rewrite E1, E2, E3.
    + intros Hi. destruct (K Hi) as (E1 & E2 & E3 & E4). simpl. rewrite E1. unfold p; simpl. fold x. rewrite E2, E3, E4. simpl. ring.
    + intros Hi. destruct Hoff as [_ O]. destruct (O l Hi) as (-> & -> & ->). ring.
Qed.

Lemma add_ok h tr : wfrow tr -> gfin h ->
  exists h', add_to_gradient (fst tr) (map Fin (snd tr)) h = (h', Val tt) /\ gfin h' /\
    Phi h' = Phi h + pairT h D tr.
Proof.
  intros Hw Hg. destruct tr as [[l|l|a] r]; unfold wfrow in Hw; cbn [fst snd] in *; unfold pairT; cbn [fst snd].
  - destruct r as [|x [|y [|]]]; try discriminate. apply padd_ok; auto.
  - destruct r as [|x [|y [|z [|w [|]]]]]; try discriminate. cbn [map nth].
    cbn [add_to_gradient]. unfold Line_add_to_gradient, mbind at 1, massert. rewrite (all_finite_map [x;y;z;w] : all_finite [_;_;_;_] = true). cbn [mret firstn skipn].
    destruct (padd_ok h (l_start (getL h l)) x y Hg) as (h1 & E1 & G1 & P1).
    destruct (padd_ok h1 (l_end (getL h l)) z w G1) as (h2 & E2 & G2 & P2).
    unfold mbind. rewrite E1, E2. eexists; split; [reflexivity|]. split; auto. lra.
  - destruct r as [|x [|y [|z [|w [|v [|]]]]]]; try discriminate. cbn [map nth].
    cbn [add_to_gradient]. unfold Arc_add_to_gradient, mbind at 1, massert. rewrite (all_finite_map [x;y;z;w;v] : all_finite [_;_;_;_;_] = true). cbn [mret firstn nth].
    destruct (padd_ok h (a_center (getA h a)) x y Hg) as (h1 & E1 & G1 & P1).
    unfold mbind. rewrite E1. eexists; split; [reflexivity|].
    destruct (arcadd_ok h1 a z w v G1) as [G2 P2]. split; auto. rewrite P2, P1. ring.
Qed.

Lemma pairT_sd h h' tr : sdeq h h' -> pairT h' D tr = pairT h D tr.
Proof.
  intros Hd. destruct tr as [[l|l|a] r]; unfold pairT; simpl; auto.
  - now rewrite (sd_getL _ _ _ Hd).
  - destruct (sd_arc _ _ a Hd) as (-> & _). auto.
Qed.
Lemma pairing_sd h h' rows : sdeq h h' -> pairing h' D rows = pairing h D rows.
Proof. intros Hd. unfold pairing. f_equal. apply map_ext. intros; now apply pairT_sd. Qed.

Lemma rows_ok rows : List.Forall wfrow rows -> forall h, gfin h ->
  exists h', mfor (map toFin rows) (fun tr => add_to_gradient (fst tr) (snd tr)) h = (h', Val tt) /\
    gfin h' /\ Phi h' = Phi h + pairing h D rows.
Proof.
  induction rows as [|tr rows IH]; intros Hw h Hg; simpl.
  - exists h. split; [auto|split; [auto|]]. unfold pairing; simpl. lra.
  - inversion Hw; subst. destruct (add_ok h tr H1 Hg) as (h1 & E1 & G1 & P1).
    pose proof (add_sd (fst tr) (map Fin (snd tr)) h) as S. rewrite E1 in S; simpl in S.
    destruct (IH H2 h1 G1) as (h2 & E2 & G2 & P2).
    unfold mbind. rewrite E1, E2. exists h2. split; [auto|split; [auto|]].
    rewrite P2, P1, (pairing_sd h h1) by auto. unfold pairing; simpl. ring.
Qed.
Lemma update_ok h c : con_finite h c -> eqlen_ok (cfg_of h) h c -> gfin h ->
  exists h', update_gradient c h = (h', Val tt) /\ gfin h' /\ Phi h' = Phi h + pairing h D (fin_rows h c).
Proof.
  intros Hf He Hg. destruct (fin_rows_ok h c Hf He) as (E & W & _).
  unfold update_gradient. rewrite E. now apply rows_ok.
Qed.
End Acc.

(** the pairing with the zero direction, used for well-definedness alone *)
Definition zcfg : cfg := mkCfg (fun _ => 0) (fun _ => 0) (fun _ => 0) (fun _ => 0) (fun _ => 0).
Lemma zcfg_off cs : off0 cs zcfg.
Proof. split; intros; simpl; auto. Qed.

(** ** zero_gradient *)
Lemma prim_zero_grad h c c' : cell_ok h c -> prim_grad (prim_zero h c) c' = if pcell_eqb c c' then repeat f0 (dim c) else prim_grad h c'.
Proof.
  intros Hc. destruct (pcell_eqb c c') eqn:E.
  - apply pcell_eqb_eq in E; subst c'. destruct c; simpl in *; auto; apply Nat.ltb_lt in Hc;
    rewrite ?getP_setP, ?getA_setA, ?getC_setC, Nat.eqb_refl, Hc; reflexivity.
  - apply zero_grad_other. now apply pcell_eqb_neq.
Qed.
Lemma prim_zero_ok h c c' : cell_ok (F:=xR) h c' -> cell_ok (prim_zero h c) c'.
Proof. destruct c, c'; simpl; rewrite ?lset_length; auto. Qed.
Lemma zero_list_grad l : forall h, (forall c, In c l -> cell_ok (F:=xR) h c) ->
  (forall c, In c l -> prim_grad (fold_left prim_zero l h) c = repeat f0 (dim c)) /\
  (forall c, ~ In c l -> prim_grad (fold_left prim_zero l h) c = prim_grad h c).
Proof.
  induction l as [|x l IH]; intros h Hok; simpl; [split; [tauto|auto]|].
  destruct (IH (prim_zero h x)) as [I1 I2]; [intros; apply prim_zero_ok, Hok; now right|].
  split.
  - intros c Hc. destruct (in_dec pcell_dec c l) as [Hi|Hi]; [auto|].
    destruct Hc as [<-|Hc]; [|tauto]. rewrite I2 by auto. rewrite prim_zero_grad by (apply Hok; now left).
    now rewrite pcell_eqb_refl.
  - intros c Hc. rewrite I2 by tauto. apply zero_grad_other. tauto.
Qed.
Lemma zero_gfin s h : (forall c, In c (cells s) -> cell_ok h c) -> gfin (cells s) (zero_all s h).
Proof.
  intros Hok c Hc. destruct (zero_list_grad (cells s) h Hok) as [Z _]. specialize (Z c Hc).
  change (fold_left prim_zero (cells s) h) with (zero_all s h) in Z. split; [|split].
  - destruct (zero_all_struct s h) as (_&_&H3&H4&H5&_). pose proof (zero_all_struct s h) as (H1&_).
    specialize (Hok c Hc). destruct c; simpl in *; rewrite ?H1, ?H3, ?H4, ?H5; auto.
  - rewrite Z. destruct c; simpl; rewrite ?f0_R; reflexivity.
  - destruct c; auto. cbn [prim_grad repeat dim] in Z. injection Z as Z. rewrite Z. exact f0_R.
Qed.
Lemma zero_Phi s D h : (forall c, In c (cells s) -> cell_ok h c) -> Phi (cells s) D (zero_all s h) = 0.
Proof.
  intros Hok. destruct (zero_list_grad (cells s) h Hok) as [Z _].
  change (fold_left prim_zero (cells s) h) with (zero_all s h) in Z.
  unfold Phi. rewrite (sum_same (fun _ => 0)).
  - induction (cells s); simpl; auto. rewrite IHl; [lra | intros; apply Hok; now right | intros; apply Z; now right].
  - intros c Hc. specialize (Z c Hc). destruct c; cbn [prim_grad repeat dim cellpair] in *; auto; injection Z; intros; 
    repeat match goal with H : _ = Fin _ |- _ => rewrite H end; simpl; field.
Qed.

(** ** Vectors *)
Fixpoint chunk {T} (cs : list pcell) (v : list T) (c : pcell) : list T :=
  match cs with
  | [] => []
  | x :: cs' => if pcell_eqb x c then firstn (dim x) v else chunk cs' (skipn (dim x) v) c
  end.
Definition D_of (cs : list pcell) (d : list R) : cfg :=
  mkCfg (fun l => nth 0 (chunk cs d (PPoint l)) 0) (fun l => nth 1 (chunk cs d (PPoint l)) 0)
        (fun a => nth 0 (chunk cs d (PArc a)) 0) (fun a => nth 1 (chunk cs d (PArc a)) 0)
        (fun a => nth 2 (chunk cs d (PArc a)) 0).
Lemma chunk_none {T} cs : forall (v : list T) c, ~ In c cs -> chunk cs v c = [].
Proof.
  induction cs as [|x cs IH]; intros v c Hn; simpl; auto.
  destruct (pcell_eqb x c) eqn:E; [apply pcell_eqb_eq in E; subst; exfalso; apply Hn; now left|].
  apply IH. intros H; apply Hn; now right.
Qed.
Lemma chunk_length {T} cs : forall (v : list T) c, In c cs -> length v = dims cs -> length (chunk cs v c) = dim c.
Proof.
  induction cs as [|x cs IH]; intros v c Hi Hl; simpl; [destruct Hi|].
  unfold dims in Hl; simpl in Hl; fold (dims cs) in Hl.
  destruct (pcell_eqb x c) eqn:E; [apply pcell_eqb_eq in E; subst; apply firstn_length_le; lia|].
  apply pcell_eqb_neq in E. destruct Hi; [congruence|]. apply IH; auto. rewrite skipn_length. lia.
Qed.
Lemma D_of_off cs d : off0 cs (D_of cs d).
Proof. split; intros; simpl; rewrite chunk_none by auto; auto. Qed.
Lemma chunk_flat {T} cs (f : pcell -> list T) c : (forall c, length (f c) = dim c) -> In c cs ->
  chunk cs (flat_map f cs) c = f c.
Proof.
  intros Hf. induction cs as [|x cs IH]; intros Hi; simpl; [destruct Hi|].
  destruct (pcell_eqb x c) eqn:E.
  - apply pcell_eqb_eq in E; subst. rewrite firstn_app, (Hf c), Nat.sub_diag, firstn_O, app_nil_r.
    rewrite <- (Hf c). apply firstn_all.
  - apply pcell_eqb_neq in E. destruct Hi; [congruence|].
    rewrite skipn_app, (Hf x), Nat.sub_diag, skipn_O.
    rewrite <- (Hf x), skipn_all. simpl. auto.
Qed.
Lemma chunk_map {T U} (f : T -> U) cs : forall v c, chunk cs (map f v) c = map f (chunk cs v c).
Proof.
  induction cs as [|x cs IH]; intros v c; simpl; auto.
  rewrite firstn_map, skipn_map. destruct (pcell_eqb x c); auto.
Qed.
Lemma firstn_map2 {A B C} (f : A -> B -> C) n : forall u v, firstn n (map2 f u v) = map2 f (firstn n u) (firstn n v).
Proof. induction n as [|n IH]; intros [|a u] [|b v]; simpl; auto. now rewrite IH. Qed.
Lemma map2_nil_r {A B C} (f : A -> B -> C) u : map2 f u [] = [].
Proof. destruct u; auto. Qed.
Lemma skipn_map2 {A B C} (f : A -> B -> C) n : forall u v, skipn n (map2 f u v) = map2 f (skipn n u) (skipn n v).
Proof.
  induction n as [|n IH]; intros [|a u] [|b v]; simpl; auto; now rewrite ?map2_nil_r.
Qed.
Lemma chunk_map2 {A B C} (f : A -> B -> C) cs : forall u v c,
  chunk cs (map2 f u v) c = map2 f (chunk cs u c) (chunk cs v c).
Proof.
  induction cs as [|x cs IH]; intros u v c; simpl; auto.
  rewrite firstn_map2, skipn_map2. destruct (pcell_eqb x c); auto.
Qed.
Lemma map2_length {A B C} (f : A -> B -> C) : forall u v, length u = length v -> length (map2 f u v) = length u.
Proof. induction u as [|a u IH]; intros [|b v] H; simpl in *; auto; try discriminate. Qed.
Lemma dotL_app u v : forall w, dotL (u ++ v) w = dotL u (firstn (length u) w) + dotL v (skipn (length u) w).
Proof.
  unfold dotL. induction u as [|a u IH]; intros w; simpl; [lra|].
  destruct w as [|b w]; simpl; [|rewrite IH; lra]. rewrite map2_nil_r. simpl. lra.
Qed.
Lemma dot_cells cs : NoDup cs -> forall d (gv : pcell -> list R), length d = dims cs -> (forall c, length (gv c) = dim c) ->
  dotL (flat_map gv cs) d = sumR (map (fun c => dotL (gv c) (chunk cs d c)) cs).
Proof.
  induction cs as [|x cs IH]; intros Hn d gv Hl Hg; simpl; [reflexivity|].
  inversion Hn; subst. rewrite dotL_app, (Hg x), pcell_eqb_refl.
  unfold dims in Hl; simpl in Hl; fold (dims cs) in Hl.
  rewrite IH; auto; [|rewrite skipn_length; lia].
  f_equal. apply sum_same. intros c Hc. destruct (pcell_eqb x c) eqn:E; auto.
  apply pcell_eqb_eq in E; subst; tauto.
Qed.

Definition gvec (s : sketch) (h : heap xR) : list R := map vx (stored_gradient s h).
Lemma gvec_dot s h d : NoDup (cells s) -> length d = dims (cells s) -> gfin (cells s) h ->
  dotL (gvec s h) d = Phi (cells s) (D_of (cells s) d) h.
Proof.
  intros Hn Hl Hg. unfold gvec, stored_gradient.
  assert (E : map vx (flat_map (prim_grad h) (cells s)) = flat_map (fun c => map vx (prim_grad h c)) (cells s)).
  { clear. induction (cells s) as [|c l IH]; simpl; auto. now rewrite map_app, IH. }
  rewrite E, dot_cells; auto.
  2:{ intros c. rewrite map_length, prim_grad_length. apply prim_data_dim. }
  unfold Phi. apply sum_same. intros c Hc. symmetry.
  pose proof (chunk_length (cells s) d c Hc Hl) as L. destruct (Hg c Hc) as (_ & _ & G).
  destruct c; simpl in *; unfold dotL.
  - destruct (chunk _ d _) as [|x [|y [|]]]; try discriminate. simpl. ring.
  - reflexivity.
  - destruct (chunk _ d _) as [|x [|y [|z [|]]]]; try discriminate. simpl. ring.
  - rewrite G. destruct (chunk _ d _) as [|x [|]]; try discriminate. simpl. ring.
Qed.
Lemma gfin_stored s h : gfin (cells s) h -> stored_gradient s h = map Fin (gvec s h).
Proof.
  intros Hg. unfold gvec. apply all_finite_inv. unfold stored_gradient, all_finite.
  apply forallb_forall. intros x Hx. apply in_flat_map in Hx as (c & Hc & Hx).
  destruct (Hg c Hc) as (_ & G & _). unfold all_finite in G. rewrite forallb_forall in G. auto.
Qed.
Lemma stored_length s (h : heap xR) : length (stored_gradient s h) = get_n_dofs h s.
Proof.
  rewrite n_dofs_dims. unfold stored_gradient, dims. induction (cells s) as [|c l IH]; simpl; auto.
  rewrite app_length, IH, prim_grad_length, prim_data_dim. reflexivity.
Qed.

(** ** get_gradient and get_jacobian *)
Definition good (s : sketch) (h : heap xR) : Prop :=
  forall k, In k (s_cons s) -> con_finite h (getK h k) /\ eqlen_ok (cfg_of h) h (getK h k).

Lemma good_con s h h' k : sdeq h h' -> good s h -> In k (s_cons s) ->
  con_finite h' (getK h' k) /\ eqlen_ok (cfg_of h') h' (getK h' k) /\ fin_rows h' (getK h' k) = fin_rows h (getK h k).
Proof.
  intros Hd Hg Hk. destruct (Hg k Hk) as [H1 H2]. rewrite (struct_getK _ _ _ (proj1 Hd)).
  split; [now apply (sd_con_finite h)|]. rewrite (sd_cfg _ _ Hd). split.
  - destruct (getK h k); simpl in *; auto. unfold dirR in *. now rewrite !(sd_getL _ _ _ Hd).
  - unfold fin_rows. now rewrite (sd_rows _ _ _ Hd).
Qed.

Lemma updates_ok s D h : NoDup (cells s) -> off0 (cells s) D -> good s h ->
  forall ks, incl ks (s_cons s) -> forall h1, sdeq h h1 -> gfin (cells s) h1 ->
  exists h2, mfor ks (fun k h => update_gradient (getK h k) h) h1 = (h2, Val tt) /\ sdeq h h2 /\ gfin (cells s) h2 /\
    Phi (cells s) D h2 = Phi (cells s) D h1 + sumR (map (fun k => pairing h D (fin_rows h (getK h k))) ks).
Proof.
  intros Hn Ho Hg. induction ks as [|k ks IH]; intros Hi h1 Hd Hf; simpl.
  - exists h1. split; [auto|split; [auto|split; [auto|lra]]].
  - destruct (good_con s h h1 k Hd Hg (Hi k (or_introl eq_refl))) as (C1 & C2 & C3).
    destruct (update_ok (cells s) D Hn Ho h1 (getK h1 k) C1 C2 Hf) as (h2 & E & G & P).
    pose proof (update_sd (getK h1 k) h1) as S. rewrite E in S; simpl in S.
    assert (S2 : sdeq h h2) by (eapply sd_pre; eauto).
    destruct (IH (fun x Hx => Hi x (or_intror Hx)) h2 S2 G) as (h3 & E3 & S3 & G3 & P3).
    unfold mbind. rewrite E, E3. exists h3. split; [auto|split; [auto|split; [auto|]]].
    rewrite P3, P, C3, (pairing_sd D h h1) by auto. ring.
Qed.

Lemma gradient_ok s h : NoDup (cells s) -> (forall c, In c (cells s) -> cell_ok h c) -> good s h ->
  exists h' , get_gradient s h = (h', Val (map Fin (gvec s h'))) /\ length (gvec s h') = get_n_dofs h s /\
    forall d, length d = get_n_dofs h s ->
      dotL (gvec s h') d =
      sumR (map (fun k => pairing h (D_of (cells s) d) (fin_rows h (getK h k))) (s_cons s)).
Proof.
  intros Hn Hok Hg.
  assert (Z := zero_all_sd s h). assert (G0 := zero_gfin s h Hok).
  destruct (updates_ok s zcfg h Hn (zcfg_off _) Hg (s_cons s) (incl_refl _) _ Z G0) as (h2 & E & S & G & _).
  exists h2. unfold get_gradient, mbind at 1. rewrite E. unfold mbind, massert.
  assert (Q : forallb (fun c => all_finite (prim_grad h2 c)) (cells s) = true).
  { apply forallb_forall. intros c Hc. now destruct (G c Hc) as (_ & ? & _). }
  rewrite Q. cbn [mret]. split; [|split].
  - now rewrite <- gfin_stored.
  - unfold gvec. rewrite map_length, stored_length. rewrite !n_dofs_dims. reflexivity.
  - intros d Hl. rewrite n_dofs_dims in Hl.
    destruct (updates_ok s (D_of (cells s) d) h Hn (D_of_off _ _) Hg (s_cons s) (incl_refl _) _ Z G0) as (h3 & E' & _ & _ & P).
    rewrite E' in E. injection E as ->. rewrite gvec_dot by auto. rewrite P, zero_Phi by auto. ring.
Qed.

Lemma jacobian_ok s h : NoDup (cells s) -> (forall c, In c (cells s) -> cell_ok h c) -> good s h ->
  forall ks, incl ks (s_cons s) -> forall h1, sdeq h h1 ->
  exists h2 J, jacobian_rows s ks h1 = (h2, Val (map (map Fin) J)) /\ sdeq h h2 /\
    Forall2 (fun k row => length row = get_n_dofs h s /\ forall d, length d = get_n_dofs h s ->
       dotL row d = pairing h (D_of (cells s) d) (fin_rows h (getK h k))) ks J.
Proof.
  intros Hn Hok Hg. induction ks as [|k ks IH]; intros Hi h1 Hd; simpl.
  - exists h1, []. repeat split; auto; apply Hd.
  - assert (Z : sdeq h (zero_all s h1)) by (eapply sd_pre; [exact Hd | apply zero_all_sd]).
    assert (Hok1 : forall c, In c (cells s) -> cell_ok h1 c).
    { intros c Hc. specialize (Hok c Hc). destruct Hd as [(E1&E2&E3&E4&E5&_) _].
      destruct c; simpl in *; rewrite ?E1, ?E3, ?E4, ?E5; auto. }
    assert (G0 := zero_gfin s h1 Hok1).
    destruct (good_con s h _ k Z Hg (Hi k (or_introl eq_refl))) as (C1 & C2 & C3).
    destruct (update_ok (cells s) zcfg Hn (zcfg_off _) _ _ C1 C2 G0) as (h2 & E & G & _).
    pose proof (update_sd (getK (zero_all s h1) k) (zero_all s h1)) as S. rewrite E in S; simpl in S.
    assert (S2 : sdeq h h2) by (eapply sd_pre; eauto).
    destruct (IH (fun x Hx => Hi x (or_intror Hx)) h2 S2) as (h3 & J & E3 & S3 & FJ).
    unfold mbind at 1. rewrite E. unfold mbind. rewrite E3. exists h3, (gvec s h2 :: J).
    split; [simpl; now rewrite <- gfin_stored | split; [auto|]]. constructor; auto. split.
    + unfold gvec. rewrite map_length, stored_length, !n_dofs_dims. reflexivity.
    + intros d Hl. rewrite n_dofs_dims in Hl.
      destruct (update_ok (cells s) (D_of (cells s) d) Hn (D_of_off _ _) _ _ C1 C2 G0) as (h2' & E' & _ & P).
      rewrite E' in E. injection E as ->. rewrite gvec_dot by auto. rewrite P, zero_Phi by auto.
      rewrite C3, (pairing_sd _ h) by auto. ring.
Qed.

(** ** Moving along a direction *)

Lemma moved_ok h s d t : NoDup (cells s) -> (forall c, In c (cells s) -> cell_ok h c) ->
  length d = get_n_dofs h s ->
  struct_eq h (moved h s d t) /\
  (forall c, In c (cells s) -> prim_data (moved h s d t) c =
     map Fin (map2 (fun x y => x + t * y) (map vx (prim_data h c)) (chunk (cells s) d c))) /\
  (forall c, ~ In c (cells s) -> prim_data (moved h s d t) c = prim_data h c) /\
  exists h', set_data s (map Fin (map2 (fun x y => x + t * y) (map vx (get_data h s)) d)) h = (h', Val tt).
Proof.
  intros Hn Hok Hl. unfold moved.
  set (v := map Fin _).
  assert (Lv : length v = get_n_dofs h s).
  { unfold v. rewrite map_length, map2_length; rewrite map_length, get_data_length; auto. }
  destruct (set_data_ok s v h Lv) as [h' E]; [apply all_finite_map|].
  pose proof (set_data_frame s v h) as [[Fs _] Fd].
  rewrite E in *. cbn [fst] in *. split; [auto|]. split; [|split; [auto|eauto]].
  intros c Hc. assert (G : get_data h' s = v) by (eapply set_get; eauto; now apply Forall_forall).
  transitivity (chunk (cells s) v c).
  { rewrite <- G. unfold get_data. symmetry. apply chunk_flat; auto. intros; apply prim_data_dim. }
  unfold v. rewrite chunk_map, chunk_map2, chunk_map.
  do 3 f_equal. unfold get_data. apply chunk_flat; auto. intros; apply prim_data_dim.
Qed.
Lemma moved_cfg h s d t : NoDup (cells s) -> (forall c, In c (cells s) -> cell_ok h c) ->
  length d = get_n_dofs h s ->
  cfg_of (moved h s d t) = shift (cfg_of h) (D_of (cells s) d) t.
Proof.
  intros Hn Hok Hl. destruct (moved_ok h s d t Hn Hok Hl) as (_ & H1 & H2 & _).
  rewrite n_dofs_dims in Hl.
  unfold cfg_of at 1, shift.
  assert (P : forall l, vx (p_x (getP (moved h s d t) l)) = vx (p_x (getP h l)) + t * nth 0 (chunk (cells s) d (PPoint l)) 0 /\
                        vx (p_y (getP (moved h s d t) l)) = vx (p_y (getP h l)) + t * nth 1 (chunk (cells s) d (PPoint l)) 0).
  { intros l. destruct (in_dec pcell_dec (PPoint l) (cells s)) as [Hi|Hi].
    - specialize (H1 _ Hi). pose proof (chunk_length _ d _ Hi Hl) as L.
      destruct (chunk _ d _) as [|x [|y [|]]]; try discriminate. simpl in *. injection H1 as -> ->. auto.
    - specialize (H2 _ Hi). rewrite chunk_none by auto. simpl in *. injection H2 as -> ->. split; ring. }
  assert (Q : forall l, vx (a_radius (getA (moved h s d t) l)) = vx (a_radius (getA h l)) + t * nth 0 (chunk (cells s) d (PArc l)) 0 /\
                        vx (a_sa (getA (moved h s d t) l)) = vx (a_sa (getA h l)) + t * nth 1 (chunk (cells s) d (PArc l)) 0 /\
                        vx (a_ea (getA (moved h s d t) l)) = vx (a_ea (getA h l)) + t * nth 2 (chunk (cells s) d (PArc l)) 0).
  { intros l. destruct (in_dec pcell_dec (PArc l) (cells s)) as [Hi|Hi].
    - specialize (H1 _ Hi). pose proof (chunk_length _ d _ Hi Hl) as L.
      destruct (chunk _ d _) as [|x [|y [|z [|]]]]; try discriminate. simpl in *. injection H1 as -> -> ->. auto.
    - specialize (H2 _ Hi). rewrite chunk_none by auto. simpl in *. injection H2 as -> -> ->. repeat split; ring. }
  f_equal; apply functional_extensionality; intros l; simpl; apply P || apply Q.
Qed.
Lemma moved_con_finite h s d t c : NoDup (cells s) -> (forall c, In c (cells s) -> cell_ok h c) ->
  length d = get_n_dofs h s -> con_finite h c -> con_finite (moved h s d t) c.
Proof.
  intros Hn Hok Hl [C1 C2]. destruct (moved_ok h s d t Hn Hok Hl) as (S & H1 & H2 & _).
  split; auto. intros x Hx. rewrite (struct_deps _ _ _ S) in Hx.
  destruct (in_dec pcell_dec x (cells s)) as [Hi|Hi].
  - rewrite H1 by auto. apply all_finite_map.
  - rewrite H2 by auto. auto.
Qed.

(** ** The loss *)
Lemma fold_loss (ks : list loc) (f : loc -> R) : forall a,
  fold_left (fun acc k => acc +f Fin (f k)) ks (Fin a) = Fin (a + sumR (map f ks)).
Proof.
  induction ks as [|k ks IH]; intros a; simpl; [f_equal; ring|]. rewrite IH. f_equal. ring.
Qed.
Lemma fold_left_ext_in {A B} (f g : A -> B -> A) l : (forall a b, In b l -> f a b = g a b) ->
  forall a, fold_left f l a = fold_left g l a.
Proof.
  induction l as [|b l IH]; intros H a; simpl; auto. rewrite H by now left. apply IH. intros; apply H; now right.
Qed.
Lemma get_loss_R h s : all_con_finite h s ->
  get_loss h s = Fin (sumR (map (fun k => lossR (cfg_of h) h (getK h k)) (s_cons s))).
Proof.
  intros H. unfold get_loss. rewrite (fold_left_ext_in _ (fun acc k => acc +f Fin (lossR (cfg_of h) h (getK h k)))).
  - rewrite f0_R, fold_loss. f_equal. ring.
  - intros a k Hk. rewrite loss_R; auto.
Qed.

Lemma derive_sum {T} (l : list T) (f : T -> R -> R) (d : T -> R) :
  (forall x, In x l -> is_derive (f x) 0 (d x)) ->
  is_derive (fun t => sumR (map (fun x => f x t) l)) 0 (sumR (map d l)).
Proof.
  induction l as [|x l IH]; intros H; simpl.
  - apply @is_derive_const.
  - apply (is_derive_plus (f x) (fun t => sumR (map (fun x => f x t) l))); [apply H; now left | apply IH; intros; apply H; now right].
Qed.

Lemma nondeg_active g h c : nondegenerate g h c -> active g h c.
Proof. destruct c; simpl; auto. intros (H1 & H2 & H3); repeat split; auto; lra. Qed.
Lemma nondeg_eqlen g h c : nondegenerate g h c -> eqlen_ok g h c.
Proof. destruct c; simpl; auto. Qed.

Lemma con_loss_deriv h s d k : NoDup (cells s) -> (forall c, In c (cells s) -> cell_ok h c) ->
  length d = get_n_dofs h s -> con_finite h (getK h k) -> nondegenerate (cfg_of h) h (getK h k) ->
  is_derive (fun t => vx (loss_value (moved h s d t) (getK h k))) 0
            (pairing h (D_of (cells s) d) (fin_rows h (getK h k))).
Proof.
  intros Hn Hok Hl Hf Hnd.
  apply (is_derive_ext (fun t => lossR (shift (cfg_of h) (D_of (cells s) d) t) h (getK h k))).
  - intros t. req. rewrite loss_R by (now apply moved_con_finite).
    rewrite moved_cfg by auto. simpl. symmetry. apply struct_lossR. now apply moved_ok.
  - destruct (fin_rows_ok h (getK h k) Hf (nondeg_eqlen _ _ _ Hnd)) as (_ & _ & E & _).
    rewrite E by now apply nondeg_active. apply loss_deriv; auto. now apply nondeg_eqlen.
Qed.
Lemma get_loss_deriv h s d : NoDup (cells s) -> (forall c, In c (cells s) -> cell_ok h c) ->
  length d = get_n_dofs h s -> all_con_finite h s ->
  (forall k, In k (s_cons s) -> nondegenerate (cfg_of h) h (getK h k)) ->
  is_derive (fun t => vx (get_loss (moved h s d t) s)) 0
    (sumR (map (fun k => pairing h (D_of (cells s) d) (fin_rows h (getK h k))) (s_cons s))).
Proof.
  intros Hn Hok Hl Hf Hnd.
  apply (is_derive_ext (fun t => sumR (map (fun k => vx (loss_value (moved h s d t) (getK h k))) (s_cons s)))).
  - intros t. req. destruct (moved_ok h s d t Hn Hok Hl) as (S & _).
    rewrite get_loss_R.
    + simpl. f_equal. apply map_ext_in. intros k Hk. rewrite (struct_getK _ _ _ S).
      rewrite loss_R; [reflexivity | apply moved_con_finite; auto].
    + intros k Hk. rewrite (struct_getK _ _ _ S). apply moved_con_finite; auto.
  - apply (derive_sum (s_cons s) (fun k t => vx (loss_value (moved h s d t) (getK h k)))). intros k Hk. apply con_loss_deriv; auto.
Qed.
