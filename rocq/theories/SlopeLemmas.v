(** * The gradient in binary64 beside the exact one: accumulation (proofs for C86) *)
From Coq Require Import List ZArith NArith Arith Bool Reals Lra Lia Floats.SpecFloat.
From Flocq Require Import Core.Core IEEE754.BinarySingleNaN.
From Verif Require Import Arith ArithR ArithF Vec Prim Cons Sketch Solve Api Spec SerdeSpec HeapLemmas WfLemmas SpecLemmas PureLemmas FloatLemmas FloatSpec FloatBound
  ExactLemmas ExactSpec DerivLemmas RoundSpec RoundTurn RoundWalk RoundArea AccuracySpec AccuracyLemmas.
Import ListNotations.
Local Open Scope R_scope.

Section Acc.
Variable L : libm.
#[local] Instance AF : Arith spec_float := ArithF L.
Variables (h0 : heap spec_float) (H0 : heap xR) (s : sketch).
Hypothesis OK1 : forall c, In c (cells s) -> cell_ok h0 c.
Hypothesis OK2 : forall c, In c (cells s) -> cell_ok H0 c.
Hypothesis SL : forall l, getL H0 l = getL h0 l.
Hypothesis SA : forall a, a_center (getA H0 a) = a_center (getA h0 a).
(** at most [N] additions of terms of size [B], each off by at most [E] *)
Variables (N : nat) (B E : R).
Hypothesis PB : 0 <= B.
Hypothesis PE : 0 <= E.
Hypothesis NU : INR N * U <= / 8.
Hypothesis NB : INR N * (B + 3 * (E + U * (INR N * B) + eta)) <= big.
Definition F : R := 2 * (E + U * (INR N * B) + eta).

Lemma ap_mag x a m e : ap x a m e -> 0 <= m /\ 0 <= e.
Proof. intros (_ & P & Q). pose proof (Rabs_pos a). pose proof (Rabs_pos (value x - a)). lra. Qed.
Lemma F_pos : 0 <= F.
Proof.
  unfold F. pose proof (pos_INR N). pose proof U_small. pose proof eta_t as (T1 & _).
  assert (0 <= U * (INR N * B)) by (apply Rmult_le_pos; [lra|]; now apply Rmult_le_pos). lra.
Qed.
Lemma acc_ap n x y a b : (S n <= N)%nat -> ap x a (INR n * B) (INR n * F) -> ap y b B E ->
  ap (x +f y) (a + b) (INR (S n) * B) (INR (S n) * F).
Proof.
  intros Hn X Y. apply le_INR in Hn. pose proof Hn as Hn'. rewrite S_INR in Hn. pose proof (pos_INR n) as Pn. pose proof F_pos as PF.
  pose proof U_small as US. pose proof eta_t as (T1 & _).
  assert (FB : INR n * F <= INR N * F) by (apply Rmult_le_compat_r; lra).
  assert (nB : (INR n + 1) * B <= INR N * B) by (apply Rmult_le_compat_r; lra).
  assert (EF : E <= F / 2) by (unfold F; pose proof (pos_INR N); assert (0 <= U * (INR N * B)) by (apply Rmult_le_pos; [lra|]; now apply Rmult_le_pos); lra).
  assert (PN : 1 <= INR N) by lra.
  assert (EN : E <= INR N * E) by nra.
  assert (Z : INR n * B + B + INR n * F + E <= big).
  { eapply Rle_trans; [|exact NB].
    assert (INR n * F + E <= INR N * F) by nra.
    replace (INR N * (B + 3 * (E + U * (INR N * B) + eta))) with (INR N * B + INR N * F * (3 / 2)) by (unfold F; field).
    assert (0 <= INR N * F) by (apply Rmult_le_pos; lra). lra. }
  eapply ap_weaken; [exact (ap_add _ _ _ _ _ _ _ _ X Y Z)|rewrite S_INR; lra|].
  assert (UF : U * (INR n * F) <= F / 8).
  { apply Rle_trans with (U * (INR N * F)); [apply Rmult_le_compat_l; lra|]. replace (U * (INR N * F)) with (INR N * U * F) by ring. nra. }
  assert (UB : U * (INR n * B + B) <= U * (INR N * B)) by (apply Rmult_le_compat_l; lra).
  assert (UE : U * E <= F / 1000) by nra.
  rewrite S_INR. unfold F in *. lra.
Qed.

Definition near (n : nat) (h : heap spec_float) (H : heap xR) : Prop := forall c, In c (cells s) ->
  Forall2 (fun x y => exists a, y = Fin a /\ ap x a (INR n * B) (INR n * F)) (prim_grad h c) (prim_grad H c).
Definition row_near (g : list spec_float) (G : list R) : Prop := Forall2 (fun x a => ap x a B E) g G.
Lemma near_more n n' h H : (n <= n')%nat -> near n h H -> near n' h H.
Proof.
  intros Hn I c Hc. specialize (I c Hc). apply le_INR in Hn. pose proof F_pos.
  induction I as [|x y xs ys (a & Ea & A) I IH]; constructor; auto. exists a. split; auto.
  eapply ap_weaken; [exact A|apply Rmult_le_compat_r; lra|apply Rmult_le_compat_r; lra].
Qed.
Lemma row_fin g G : row_near g G -> all_finite g = true /\ all_finite (map Fin G) = true.
Proof.
  intros R. unfold all_finite. split; apply forallb_forall; [|intros x Hx; apply in_map_iff in Hx as (r & <- & _); reflexivity].
  induction R as [|x a xs ys A R IH]; intros y Hy; [destruct Hy|]. destruct Hy as [<-|Hy]; auto.
  destruct A as [F1 _]. destruct x; try reflexivity; destruct F1; discriminate.
Qed.
Lemma zero_val : finite64 (f0 : spec_float) /\ value (f0 : spec_float) = 0.
Proof. split; [split; reflexivity|]. unfold value. reflexivity. Qed.
Lemma ap_zero : ap (f0 : spec_float) 0 B E.
Proof.
  destruct zero_val as [Z1 Z2]. split; [exact Z1|]. rewrite Z2, Rminus_0_r, Rabs_R0. auto.
Qed.
Lemma nth_near g G i : row_near g G -> ap (nth i g f0) (nth i G 0) B E.
Proof. intros R. revert i. induction R as [|x a xs ys A R IH]; intros [|i]; simpl; auto using ap_zero. Qed.
Lemma nth_Fin G i : nth i (map Fin G) f0 = Fin (nth i G 0).
Proof. rewrite f0_R. apply (map_nth Fin). Qed.
Lemma firstn_near n g G : row_near g G -> row_near (firstn n g) (firstn n G).
Proof. intros R. revert n. induction R as [|x a xs ys A R IH]; intros [|n]; simpl; try constructor; auto. apply IH. Qed.
Lemma skipn_near n g G : row_near g G -> row_near (skipn n g) (skipn n G).
Proof. intros R. revert n. induction R as [|x a xs ys A R IH]; intros [|n]; simpl; try constructor; auto. Qed.

Definition paired (n : nat) (m1 : M spec_float unit) (m2 : M xR unit) (h : heap spec_float) (H : heap xR) : Prop :=
  exists h' H', m1 h = (h', Val tt) /\ m2 H = (H', Val tt) /\ near n h' H' /\ sdeq h0 h' /\ sdeq H0 H'.
Lemma padd_near n l g G h H : (S n <= N)%nat -> row_near g G -> near n h H -> sdeq h0 h -> sdeq H0 H ->
  paired (S n) (Point2_add_to_gradient l g) (Point2_add_to_gradient l (map Fin G)) h H.
Proof.
  intros Hn R I S1 S2. destruct (row_fin _ _ R) as [F1 F2].
  pose proof (padd_sd l g h) as D1. pose proof (padd_sd l (map Fin G) H) as D2.
  unfold paired. unfold Point2_add_to_gradient, mbind, massert in *. rewrite F1 in *. rewrite F2 in *. cbn [mret] in *.
  eexists. eexists. split; [reflexivity|]. split; [reflexivity|]. split; [|split; eapply sd_pre; eauto].
  intros c Hc. destruct (pcell_dec c (PPoint l)) as [->|Nc].
  2:{ rewrite !grad_setP_other by auto. exact (near_more n (S n) h H (Nat.le_succ_diag_r n) I c Hc). }
  specialize (I _ Hc). cbn [prim_grad] in *. rewrite !getP_setP, Nat.eqb_refl.
  pose proof (cell_ok_sd _ _ _ S1 (OK1 _ Hc)) as C1. pose proof (cell_ok_sd _ _ _ S2 (OK2 _ Hc)) as C2. cbn [cell_ok] in C1, C2.
  apply Nat.ltb_lt in C1, C2. rewrite C1, C2. cbn [andb p_gx p_gy].
  inversion I as [|? ? ? ? (a & Ea & A) I2]; subst. inversion I2 as [|? ? ? ? (b & Eb & A2) I3]; subst.
  rewrite Ea, Eb, !nth_Fin, !add_R.
  constructor; [eexists; split; [reflexivity|apply acc_ap; auto; now apply nth_near]|].
  constructor; [eexists; split; [reflexivity|apply acc_ap; auto; now apply nth_near]|constructor].
Qed.
Lemma add_near n t g G h H : (S (S n) <= N)%nat -> row_near g G -> near n h H -> sdeq h0 h -> sdeq H0 H ->
  paired (S (S n)) (add_to_gradient t g) (add_to_gradient t (map Fin G)) h H.
Proof.
  intros Hn R I S1 S2. destruct (row_fin _ _ R) as [F1 F2]. destruct t as [l|l|l]; cbn [add_to_gradient].
  - destruct (padd_near n l g G h H) as (h' & H' & E1 & E2 & I' & D); auto; [lia|].
    exists h', H'. split; [exact E1|]. split; [exact E2|]. split; [|exact D]. exact (near_more (S n) (S (S n)) h' H' (Nat.le_succ_diag_r _) I').
  - unfold paired. unfold Line_add_to_gradient, mbind at 1 3, massert. rewrite F1, F2. cbn [mret]. cbv zeta. unfold mbind.
    assert (EL : getL H l = getL h l) by (rewrite (struct_getL _ _ _ (proj1 S1)), (struct_getL _ _ _ (proj1 S2)); apply SL). rewrite EL.
    rewrite !firstn_map, !skipn_map, !firstn_map.
    destruct (padd_near n (l_start (getL h l)) (firstn 2 g) (firstn 2 G) h H) as (h1 & H1 & E1 & E2 & I1 & D1 & D2); auto; [lia|now apply firstn_near|].
    rewrite E1, E2.
    destruct (padd_near (S n) (l_end (getL h l)) (firstn 2 (skipn 2 g)) (firstn 2 (skipn 2 G)) h1 H1) as (h2 & H2 & E3 & E4 & I2 & D3 & D4); auto; [now apply firstn_near, skipn_near|].
    exists h2, H2. auto.
  - pose proof (add_sd (GArc l) g h) as Da. pose proof (add_sd (GArc l) (map Fin G) H) as Db. cbn [add_to_gradient] in Da, Db.
    unfold paired. unfold Arc_add_to_gradient, mbind, massert in *. rewrite F1 in *. rewrite F2 in *. cbn [mret] in *.
    assert (EA : a_center (getA H l) = a_center (getA h l)).
    { destruct S1 as [(_&_&_&_&_&X1&_) _], S2 as [(_&_&_&_&_&X2&_) _]. rewrite (proj1 (X1 l)), (proj1 (X2 l)). apply SA. }
    rewrite EA in *. rewrite !firstn_map in *.
    destruct (padd_near n (a_center (getA h l)) (firstn 2 g) (firstn 2 G) h H) as (h1 & H1 & E1 & E2 & I1 & D1 & D2); auto; [lia|now apply firstn_near|].
    rewrite E1 in *. rewrite E2 in *. eexists. eexists. split; [reflexivity|]. split; [reflexivity|]. split; [|split; [eapply sd_pre; [exact S1|exact Da]|eapply sd_pre; [exact S2|exact Db]]].
    intros c Hc. destruct (pcell_dec c (PArc l)) as [->|Nc].
    2:{ rewrite !grad_setA_other by auto. exact (near_more (S n) (S (S n)) h1 H1 (Nat.le_succ_diag_r _) I1 c Hc). }
    specialize (I1 _ Hc). cbn [prim_grad] in *. rewrite !getA_setA, Nat.eqb_refl.
    pose proof (cell_ok_sd _ _ _ D1 (OK1 _ Hc)) as C1. pose proof (cell_ok_sd _ _ _ D2 (OK2 _ Hc)) as C2. cbn [cell_ok] in C1, C2.
    apply Nat.ltb_lt in C1, C2. rewrite C1, C2. cbn [andb a_gr a_gsa a_gea].
    inversion I1 as [|? ? ? ? (a & Ea & A) I2]; subst. inversion I2 as [|? ? ? ? (b & Eb & A2) I3]; subst. inversion I3 as [|? ? ? ? (d & Ed & A3) I4]; subst.
    rewrite Ea, Eb, Ed, !nth_Fin, !add_R.
    repeat (constructor; [eexists; split; [reflexivity|apply acc_ap; auto; now apply nth_near]|]). constructor.
Qed.
Definition rows_near (rs : list (gtarget * list spec_float)) (Rs : list (gtarget * list R)) : Prop :=
  Forall2 (fun r q => fst r = fst q /\ row_near (snd r) (snd q)) rs Rs.
Lemma rows_paired rs Rs : rows_near rs Rs -> forall n h H, (n + 2 * length rs <= N)%nat -> near n h H -> sdeq h0 h -> sdeq H0 H ->
  paired (n + 2 * length rs) (mfor rs (fun tr => add_to_gradient (fst tr) (snd tr)))
    (mfor (map toFin Rs) (fun tr => add_to_gradient (fst tr) (snd tr))) h H.
Proof.
  intros R. induction R as [|[t g] [t' G] rs Rs [Et A] R IH]; intros n h H Hn I S1 S2; cbn [mfor map].
  - exists h, H. simpl. rewrite Nat.add_0_r. auto 6.
  - cbn [fst snd] in *. subst t'. cbn [length] in Hn.
    destruct (add_near n t g G h H) as (h1 & H1 & E1 & E2 & I1 & D1 & D2); auto; [lia|].
    unfold paired, mbind. cbn [toFin fst snd]. rewrite E1, E2.
    destruct (IH (S (S n)) h1 H1) as (h2 & H2 & X); auto; [lia|]. exists h2, H2.
    replace (n + 2 * length ((t, g) :: rs))%nat with (S (S n) + 2 * length rs)%nat by (simpl; lia). exact X.
Qed.
(** all constraints, each with at most two rows *)
Hypothesis Rows : forall k, In k (s_cons s) -> exists Rs, (length Rs <= 2)%nat /\ rows_near (grad_rows h0 (getK h0 k)) Rs /\ grad_rows H0 (getK H0 k) = map toFin Rs.
Lemma rows_len rs Rs : rows_near rs Rs -> length rs = length Rs.
Proof. intros R. induction R; simpl; congruence. Qed.
Lemma all_paired ks : incl ks (s_cons s) -> forall n h H, (n + 4 * length ks <= N)%nat -> near n h H -> sdeq h0 h -> sdeq H0 H ->
  paired (n + 4 * length ks) (mfor ks (fun k h => update_gradient (getK h k) h)) (mfor ks (fun k h => update_gradient (getK h k) h)) h H.
Proof.
  induction ks as [|k ks IH]; intros Hi n h H Hn I S1 S2; cbn [mfor].
  - exists h, H. simpl. rewrite Nat.add_0_r. auto 6.
  - cbn [length] in Hn. destruct (Rows k (Hi k (or_introl eq_refl))) as (Rs & Lr & R & ER). pose proof (rows_len _ _ R) as EL.
    destruct (rows_paired _ _ R n h H) as (h1 & H1 & E1 & E2 & I1 & D1 & D2); auto; [lia|].
    assert (U1 : update_gradient (getK h k) h = (h1, Val tt)) by (unfold update_gradient; rewrite (struct_getK _ _ _ (proj1 S1)), (sdg_rows _ _ _ S1); exact E1).
    assert (U2 : update_gradient (getK H k) H = (H1, Val tt)) by (unfold update_gradient; rewrite (struct_getK _ _ _ (proj1 S2)), (sdg_rows _ _ _ S2), ER; exact E2).
    unfold paired, mbind. rewrite U1, U2.
    destruct (IH (fun x Hx => Hi x (or_intror Hx)) (n + 4)%nat h1 H1) as (h2 & H2 & X); auto; [lia|eapply near_more; [|exact I1]; lia|].
    exists h2, H2. replace (n + 4 * length (k :: ks))%nat with (n + 4 + 4 * length ks)%nat by (simpl; lia). exact X.
Qed.
Lemma near_zero : near 0 (zero_all s h0) (zero_all s H0).
Proof.
  intros c Hc. unfold zero_all. destruct (zero_list (cells s) h0 OK1) as [Z1 _]. destruct (zero_list (cells s) H0 OK2) as [Z2 _].
  rewrite (Z1 c Hc), (Z2 c Hc), f0_R. induction (DataLemmas.dim c); simpl repeat; constructor; auto.
  exists 0. split; auto. change (INR 0) with 0. rewrite !Rmult_0_l. split; [split; reflexivity|]. change (value _) with 0. rewrite Rminus_0_r, Rabs_R0. lra.
Qed.
Lemma gradient_near : (4 * length (s_cons s) <= N)%nat -> exists h' g H' G, get_gradient s h0 = (h', Val g) /\ get_gradient s H0 = (H', Val (map Fin G)) /\
  Forall2 (fun x a => ap x a (INR N * B) (INR N * F)) g G.
Proof.
  intros HN. destruct (all_paired (s_cons s) (incl_refl _) 0 (zero_all s h0) (zero_all s H0)) as (h1 & H1 & E1 & E2 & I1 & D1 & D2); [exact HN|apply near_zero|apply zero_all_sd|apply zero_all_sd|].
  assert (I2 : near N h1 H1) by (eapply near_more; [|exact I1]; lia).
  assert (X : exists G, stored_gradient s H1 = map Fin G /\ Forall2 (fun x a => ap x a (INR N * B) (INR N * F)) (stored_gradient s h1) G).
  { unfold stored_gradient. clear - I2. red in I2. induction (cells s) as [|c cs IH]; [exists []; split; constructor|].
    destruct IH as (G & E1 & A1); [intros; apply I2; now right|]. specialize (I2 c (or_introl eq_refl)).
    assert (exists G0, prim_grad H1 c = map Fin G0 /\ Forall2 (fun x a => ap x a (INR N * B) (INR N * F)) (prim_grad h1 c) G0) as (G0 & E0 & A0).
    { induction I2 as [|x y xs ys (a & -> & A) I2 IH]; [exists []; split; constructor|]. destruct IH as (G0 & -> & A0). exists (a :: G0). split; [reflexivity|now constructor]. }
    exists (G0 ++ G). cbn [flat_map]. rewrite E0, E1, map_app. split; auto. now apply Forall2_app. }
  destruct X as (G & EG & A). exists h1, (stored_gradient s h1), H1, G.
  assert (F1 : forallb (fun c => all_finite (prim_grad h1 c)) (cells s) = true).
  { apply forallb_forall. intros c Hc. specialize (I2 c Hc). apply forallb_forall. intros x Hx.
    apply In_nth with (d := f0) in Hx as (i & Hi & <-). clear - I2 Hi. revert i Hi. induction I2 as [|x y xs ys (a & _ & [F1 _]) I2 IH]; intros i Hi; [simpl in Hi; lia|].
    destruct i as [|i]; simpl; [|apply IH; simpl in Hi; lia]. destruct x; try reflexivity; destruct F1; discriminate. }
  assert (F2 : forallb (fun c => all_finite (prim_grad H1 c)) (cells s) = true).
  { apply forallb_forall. intros c Hc. specialize (I2 c Hc). apply forallb_forall. intros x Hx.
    clear - I2 Hx. induction I2 as [|z y xs ys (a & -> & _) I2 IH]; [destruct Hx|]. destruct Hx as [<-|Hx]; auto. }
  unfold get_gradient. unfold mbind at 1 3. rewrite E1, E2. unfold mbind, massert. rewrite F1, F2. cbn [mret]. rewrite <- EG. auto.
Qed.
End Acc.
