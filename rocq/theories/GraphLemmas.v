(** * Differences along the edges of a graph: a Poincare inequality

    An edge joins a vertex to a vertex or to the ground, whose value is 0. *)
From Coq Require Import Reals List Arith Lia Lra Classical.
From Verif Require Import ExactSpec.
Import ListNotations.
Local Open Scope R_scope.

Definition edge := (nat * option nat)%type.
Definition val (u : nat -> R) (o : option nat) : R := match o with Some b => u b | None => 0 end.
Definition energy (E : list edge) (u : nat -> R) : R := sumR (map (fun e => sq (u (fst e) - val u (snd e))) E).
Definition energy_above (E : list edge) (u : nat -> R) (t : R) : R :=
  sumR (map (fun e => sq (Rmax (u (fst e)) t - Rmax (val u (snd e)) t)) E).
Definition crosses (u : nat -> R) (t : R) (e : edge) : Prop :=
  u (fst e) <= t < val u (snd e) \/ val u (snd e) <= t < u (fst e).
(** every level set at height t >= 0 has an edge that leaves it *)
Definition tied (E : list edge) (u : nat -> R) : Prop :=
  forall t v, 0 <= t -> t < u v -> exists e, In e E /\ crosses u t e.
Definition ltb (a b : R) : bool := if Rlt_dec a b then true else false.
Definition above (V : list nat) (u : nat -> R) (t : R) : list nat := filter (fun v => ltb t (u v)) V.
Definition off (V : list nat) (u : nat -> R) : Prop := forall v, ~ In v V -> u v = 0.

Lemma ltb_true a b : ltb a b = true <-> a < b.
Proof. unfold ltb. destruct (Rlt_dec a b); split; auto; discriminate. Qed.
Lemma sq_nonneg x : 0 <= sq x.
Proof. unfold sq. nra. Qed.
Lemma sq_le x y : - y <= x <= y -> sq x <= sq y.
Proof. unfold sq. nra. Qed.
Lemma sq_abs x y : Rabs x <= Rabs y -> sq x <= sq y.
Proof. intros H. unfold sq. apply Rsqr_le_abs_1 in H. unfold Rsqr in H. lra. Qed.

Lemma sum_le {T} (f g : T -> R) l : (forall x, In x l -> f x <= g x) -> sumR (map f l) <= sumR (map g l).
Proof.
  induction l as [|x l IH]; intros H; simpl; [lra|].
  pose proof (H x (or_introl eq_refl)). assert (sumR (map f l) <= sumR (map g l)) by (apply IH; intros; apply H; now right). lra.
Qed.
Lemma sum_le_one {T} (f g : T -> R) l x k : (forall x, In x l -> f x <= g x) -> In x l -> f x + k <= g x ->
  sumR (map f l) + k <= sumR (map g l).
Proof.
  induction l as [|y l IH]; intros H Hx Hk; [destruct Hx|]. simpl. destruct Hx as [->|Hx].
  - assert (sumR (map f l) <= sumR (map g l)) by (apply sum_le; intros; apply H; now right). lra.
  - pose proof (H y (or_introl eq_refl)). assert (sumR (map f l) + k <= sumR (map g l)) by (apply IH; auto; intros; apply H; now right). lra.
Qed.
Lemma sum_const {T} (k : R) (l : list T) : sumR (map (fun _ => k) l) = INR (length l) * k.
Proof. induction l as [|x l IH]; [simpl; ring|]. cbn [map length]. rewrite S_INR. simpl sumR. simpl in IH. rewrite IH. ring. Qed.

Lemma clip_contract a b t t' : t <= t' -> sq (Rmax a t' - Rmax b t') <= sq (Rmax a t - Rmax b t).
Proof.
  intros H. apply sq_abs. unfold Rmax, Rabs. repeat destruct Rle_dec; repeat destruct Rcase_abs; lra.
Qed.
Lemma clip_cross a b t : a <= t < b -> sq (Rmax a b - Rmax b b) + sq (b - t) <= sq (Rmax a t - Rmax b t).
Proof. intros H. unfold sq. rewrite (Rmax_right a b), (Rmax_left b b), (Rmax_right a t), (Rmax_left b t) by lra. nra. Qed.
Lemma clip_cross' a b t : a <= t < b -> sq (Rmax b b - Rmax a b) + sq (b - t) <= sq (Rmax b t - Rmax a t).
Proof. intros H. unfold sq. rewrite (Rmax_right a b), (Rmax_left b b), (Rmax_right a t), (Rmax_left b t) by lra. nra. Qed.
Lemma clip_none a b t : sq (Rmax a t - Rmax b t) <= sq (a - b).
Proof. apply sq_abs. unfold Rmax, Rabs. repeat destruct Rle_dec; repeat destruct Rcase_abs; lra. Qed.

Lemma energy_above_le E u t : energy_above E u t <= energy E u.
Proof. apply sum_le. intros e _. apply clip_none. Qed.
Lemma energy_above_nonneg E u t : 0 <= energy_above E u t.
Proof. unfold energy_above. induction E as [|e E IH]; simpl; [lra|]. pose proof (sq_nonneg (Rmax (u (fst e)) t - Rmax (val u (snd e)) t)). lra. Qed.
Lemma energy_nonneg E u : 0 <= energy E u.
Proof. unfold energy. induction E as [|e E IH]; simpl; [lra|]. pose proof (sq_nonneg (u (fst e) - val u (snd e))). lra. Qed.

(** the upper end of a crossing edge *)
Lemma cross_top E u t e : 0 <= t -> In e E -> crosses u t e -> exists w, t < u w /\
  energy_above E u (u w) + sq (u w - t) <= energy_above E u t.
Proof.
  intros Ht He [[H1 H2]|[H1 H2]].
  - destruct e as [a [b|]]; simpl in *; [|lra]. exists b. split; [auto|].
    apply (sum_le_one _ _ E (a, Some b)); auto.
    + intros e _. apply clip_contract. lra.
    + simpl. apply clip_cross. lra.
  - destruct e as [a o]; simpl in *. exists a. split; [auto|].
    apply (sum_le_one _ _ E (a, o)); auto.
    + intros e _. apply clip_contract. lra.
    + simpl. apply clip_cross'. lra.
Qed.

Lemma filter_lt {T} (p q : T -> bool) l x : (forall y, q y = true -> p y = true) -> In x l -> p x = true -> q x = false ->
  (length (filter q l) < length (filter p l))%nat.
Proof.
  intros H. induction l as [|y l IH]; intros Hx Px Qx; [destruct Hx|].
  assert (L : forall l, (length (filter q l) <= length (filter p l))%nat).
  { clear -H. induction l as [|z l IH]; simpl; [lia|]. destruct (q z) eqn:Q; [rewrite (H z Q); simpl; lia|]. destruct (p z); simpl; lia. }
  simpl. destruct Hx as [->|Hx].
  - rewrite Px, Qx. simpl. specialize (L l). lia.
  - specialize (IH Hx Px Qx). destruct (q y) eqn:Q; [rewrite (H y Q); simpl; lia|]. destruct (p y); simpl; lia.
Qed.
Lemma filter_len {T} (p : T -> bool) l : (length (filter p l) <= length l)%nat.
Proof. induction l as [|x l IH]; simpl; [lia|]. destruct (p x); simpl; lia. Qed.

Lemma reach V E u : off V u -> tied E u -> forall n t v, 0 <= t -> t < u v -> (length (above V u t) <= n)%nat ->
  sq (u v - t) <= INR n * energy_above E u t.
Proof.
  intros Ho Hc. induction n as [|n IH]; intros t v Ht Hv Hn.
  - exfalso. assert (In v (above V u t)).
    { apply filter_In. split; [|now apply ltb_true]. apply NNPP. intros N. apply Ho in N. lra. }
    destruct (above V u t); [auto|simpl in Hn; lia].
  - destruct (Hc t v Ht Hv) as (e & He & Hx). destruct (cross_top E u t e Ht He Hx) as (w & Hw & K).
    pose proof (energy_above_nonneg E u (u w)) as P. rewrite S_INR. pose proof (pos_INR n) as Pn.
    destruct (Rle_dec (u v) (u w)) as [L|L].
    + assert (sq (u v - t) <= sq (u w - t)) by (apply sq_le; lra). pose proof (sq_nonneg (u w - t)). nra.
    + apply Rnot_le_lt in L.
      assert (Hn' : (length (above V u (u w)) <= n)%nat).
      { assert (length (above V u (u w)) < length (above V u t))%nat; [|lia].
        apply (filter_lt _ _ V w).
        - intros y Hy. apply ltb_true in Hy. apply ltb_true. lra.
        - apply NNPP. intros N. apply Ho in N. lra.
        - now apply ltb_true.
        - unfold ltb. destruct Rlt_dec; auto. lra. }
      specialize (IH (u w) v ltac:(lra) L Hn'). set (A := energy_above E u (u w)) in *.
      set (x := u v - u w) in *. set (y := u w - t) in *. replace (u v - t) with (x + y) by (unfold x, y; ring).
      assert (N0 : n <> 0%nat). { intros ->. simpl in IH. assert (0 < x) by (unfold x; lra). unfold sq in IH. nra. }
      assert (N1 : 1 <= INR n) by (replace 1 with (INR 1) by reflexivity; apply le_INR; lia).
      assert (G : sq (x + y) <= (INR n + 1) * (A + sq y)).
      { apply (Rmult_le_reg_l (INR n)); [lra|]. unfold sq in *.
        assert ((INR n + 1) * (x * x) <= (INR n + 1) * (INR n * A)) by (apply Rmult_le_compat_l; lra).
        pose proof (Rle_0_sqr (x - INR n * y)) as Q. unfold Rsqr in Q. nra. }
      nra.
Qed.

Lemma val_opp u o : val (fun v => - u v) o = - val u o.
Proof. destruct o; simpl; lra. Qed.
Lemma energy_opp E u : energy E (fun v => - u v) = energy E u.
Proof. unfold energy. f_equal. apply map_ext. intros e. rewrite val_opp. unfold sq. ring. Qed.

Lemma poincare V E u : off V u -> tied E u -> tied E (fun v => - u v) ->
  sumR (map (fun v => sq (u v)) V) <= INR (length V) * (INR (length V) * energy E u).
Proof.
  intros Ho H1 H2. rewrite <- (sum_const (INR (length V) * energy E u)). apply sum_le. intros v _.
  assert (P := energy_nonneg E u). pose proof (pos_INR (length V)) as Pn.
  assert (G : forall w, off V w -> tied E w -> energy E w = energy E u -> 0 < w v -> sq (w v) <= INR (length V) * energy E u).
  { intros w Hw Tw Ew Pw. pose proof (reach V E w Hw Tw (length V) 0 v (Rle_refl _) Pw (filter_len _ _)) as R.
    replace (w v - 0) with (w v) in R by ring. pose proof (energy_above_le E w 0) as L. rewrite Ew in L.
    assert (INR (length V) * energy_above E w 0 <= INR (length V) * energy E u) by (apply Rmult_le_compat_l; auto). lra. }
  destruct (Rtotal_order (u v) 0) as [N|[Z|N]].
  - replace (sq (u v)) with (sq (- u v)) by (unfold sq; ring).
    apply (G (fun v => - u v)); auto; [intros x Hx; rewrite Ho; auto; ring | apply energy_opp | lra].
  - rewrite Z. unfold sq. rewrite Rmult_0_l. nra.
  - now apply G.
Qed.

(** ** shifting the parts that are not tied to the ground *)
Definition same_diff (E : list edge) (u w : nat -> R) : Prop :=
  forall e, In e E -> u (fst e) - val u (snd e) = w (fst e) - val w (snd e).
Lemma same_energy E u w : same_diff E u w -> energy E u = energy E w.
Proof. intros H. unfold energy. f_equal. apply map_ext_in. intros e He. now rewrite H. Qed.
Lemma same_trans E u v w : same_diff E u v -> same_diff E v w -> same_diff E u w.
Proof. intros A B e He. rewrite A; auto. Qed.
Lemma same_opp E u w : same_diff E u w -> same_diff E (fun v => - u v) (fun v => - w v).
Proof. intros H e He. rewrite !val_opp. specialize (H e He). lra. Qed.

Definition nz (V : list nat) (u : nat -> R) : nat := length (filter (fun v => if Req_EM_T (u v) 0 then false else true) V).

Lemma list_min (u : nat -> R) l : l <> [] -> exists w, In w l /\ forall v, In v l -> u w <= u v.
Proof.
  induction l as [|x l IH]; intros H; [contradiction|]. destruct l as [|y l].
  - exists x. split; [now left|]. intros v [->|[]]. lra.
  - destruct IH as (w & Hw & Hm); [discriminate|]. destruct (Rle_dec (u x) (u w)) as [L|L].
    + exists x. split; [now left|]. intros v [->|Hv]; [lra|]. specialize (Hm v Hv). lra.
    + exists w. split; [now right|]. intros v [->|Hv]; [lra|]. auto.
Qed.

Lemma untie_step V E u : off V u -> ~ tied E u -> exists w, off V w /\ same_diff E u w /\ (nz V w < nz V u)%nat.
Proof.
  intros Ho Hc. apply not_all_ex_not in Hc as [t Hc]. apply not_all_ex_not in Hc as [v Hc].
  apply imply_to_and in Hc as [Ht Hc]. apply imply_to_and in Hc as [Hv Hc].
  assert (Hx : forall e, In e E -> ~ crosses u t e) by (intros e He X; apply Hc; eauto). clear Hc.
  assert (In_V : forall x, t < u x -> In x V) by (intros x Hx'; apply NNPP; intros N; apply Ho in N; lra).
  destruct (list_min u (above V u t)) as (w & Hw & Hm).
  { intros N. assert (I : In v (above V u t)) by (apply filter_In; split; [auto | now apply ltb_true]). now rewrite N in I. }
  apply filter_In in Hw as [Hw1 Hw2]. apply ltb_true in Hw2.
  exists (fun x => if Rlt_dec t (u x) then u x - u w else u x). repeat split.
  - intros x Hx'. destruct Rlt_dec; [exfalso; apply Hx'; auto | now apply Ho].
  - intros e He. specialize (Hx e He). unfold crosses in Hx. destruct e as [a [b|]]; simpl in *.
    + destruct (Rlt_dec t (u a)), (Rlt_dec t (u b)); try lra; exfalso; apply Hx; lra.
    + destruct (Rlt_dec t (u a)); try lra; exfalso; apply Hx; lra.
  - unfold nz. apply (filter_lt _ _ V w); auto.
    + intros y. destruct (Rlt_dec t (u y)); [|auto]. intros _. destruct (Req_EM_T (u y) 0); auto. lra.
    + destruct (Req_EM_T (u w) 0); auto. lra.
    + destruct (Rlt_dec t (u w)); [|contradiction]. destruct (Req_EM_T (u w - u w) 0); auto. lra.
Qed.
Lemma nz_opp V u : nz V (fun v => - u v) = nz V u.
Proof.
  unfold nz. f_equal. apply filter_ext. intros v. destruct (Req_EM_T (- u v) 0), (Req_EM_T (u v) 0); auto; lra.
Qed.
Lemma tie V E : forall n u, (nz V u <= n)%nat -> off V u ->
  exists w, off V w /\ same_diff E u w /\ tied E w /\ tied E (fun v => - w v).
Proof.
  induction n as [n IH] using lt_wf_ind. intros u Hn Ho.
  destruct (classic (tied E u)) as [T1|T1]; [destruct (classic (tied E (fun v => - u v))) as [T2|T2]|].
  - exists u. split; [auto|]. split; [intros e _; reflexivity|]. auto.
  - destruct (untie_step V E (fun v => - u v)) as (w & O & S & L); auto.
    { intros v Hv. rewrite Ho; auto. ring. }
    rewrite nz_opp in L. rewrite <- nz_opp in L.
    destruct (IH (nz V (fun v => - w v)) ltac:(lia) (fun v => - w v) (le_n _)) as (z & Oz & Sz & T).
    { intros v Hv. rewrite O; auto. ring. }
    exists z. split; [auto|]. split; [|auto]. eapply same_trans; [|exact Sz].
    apply same_opp in S. intros e He. specialize (S e He). rewrite !val_opp in S. rewrite val_opp. lra.
  - destruct (untie_step V E u Ho T1) as (w & O & S & L).
    destruct (IH (nz V w) ltac:(lia) w (le_n _) O) as (z & Oz & Sz & T).
    exists z. split; [auto|]. split; [|auto]. eapply same_trans; eauto.
Qed.

(** each edge adds at most twice the square of the values *)
Lemma in_sq V (u : nat -> R) v : In v V -> sq (u v) <= sumR (map (fun v => sq (u v)) V).
Proof.
  assert (P : forall l, 0 <= sumR (map (fun v => sq (u v)) l)).
  { induction l as [|x l IH]; simpl; [lra|]. pose proof (sq_nonneg (u x)). lra. }
  induction V as [|x V IH]; intros H; [destruct H|]. simpl. pose proof (P V). pose proof (sq_nonneg (u x)).
  destruct H as [->|H]; [lra|]. specialize (IH H). lra.
Qed.
Lemma two_sq V (u : nat -> R) a b : NoDup V -> In a V -> In b V -> a <> b -> sq (u a) + sq (u b) <= sumR (map (fun v => sq (u v)) V).
Proof.
  induction 1 as [|x V Hx ND IH]; intros Ha Hb N; [destruct Ha|]. simpl.
  pose proof (sq_nonneg (u x)). destruct Ha as [->|Ha], Hb as [->|Hb]; try congruence.
  - pose proof (in_sq V u b Hb). lra.
  - pose proof (in_sq V u a Ha). lra.
  - specialize (IH Ha Hb N). lra.
Qed.
Lemma edge_le V u e : NoDup V -> off V u -> sq (u (fst e) - val u (snd e)) <= 2 * sumR (map (fun v => sq (u v)) V).
Proof.
  intros ND Ho. assert (P : 0 <= sumR (map (fun v => sq (u v)) V)).
  { clear. induction V as [|x V IH]; simpl; [lra|]. pose proof (sq_nonneg (u x)). lra. }
  set (S := sumR (map (fun v => sq (u v)) V)) in *.
  assert (O : forall v, sq (u v) <= S).
  { intros v. destruct (in_dec Nat.eq_dec v V) as [I|I]; [now apply in_sq|]. rewrite Ho by auto. unfold sq at 1. lra. }
  destruct e as [a [b|]]; simpl.
  - destruct (Nat.eq_dec a b) as [->|N]; [unfold sq at 1; lra|].
    assert (T : sq (u a) + sq (u b) <= S).
    { destruct (in_dec Nat.eq_dec a V) as [I|I]; [destruct (in_dec Nat.eq_dec b V) as [J|J]|].
      - now apply two_sq.
      - rewrite (Ho b J). pose proof (O a). unfold sq in *. lra.
      - rewrite (Ho a I). pose proof (O b). unfold sq in *. lra. }
    clearbody S. pose proof (Rle_0_sqr (u a + u b)). unfold sq, Rsqr in *. lra.
  - pose proof (O a). clearbody S. unfold sq in *. lra.
Qed.
