(** * Orders of the two arithmetics *)
From Coq Require Import List ZArith Arith Bool Lia Reals Lra Floats.SpecFloat.
From Verif Require Import Arith ArithR ArithF DecompSpec.

(** comparisons of numbers form a strict weak order *)
Definition strict_weak {F} {A : Arith F} : Prop := forall a b c : F, no_nan a -> no_nan b -> no_nan c ->
  (fgt a b = false -> fgt b c = false -> fgt a c = false) /\ (fgt a b = true -> fgt b a = false).
Definition total_order {F} {A : Arith F} : Prop := forall a b c : F,
  (ftle a b = true \/ ftle b a = true) /\ (ftle a b = true -> ftle b c = true -> ftle a c = true).

Lemma strict_weak_R : @strict_weak xR _.
Proof.
  intros a b c Ha Hb Hc. unfold no_nan, fgt in *. destruct a as [a| | |], b as [b| | |], c as [c| | |]; simpl in *; try discriminate;
  unfold Rltb in *; repeat (destruct (Rlt_dec _ _)); split; intros; try discriminate; auto; try lra.
Qed.
Lemma total_order_R : @total_order xR _.
Proof.
  intros a b c. destruct a as [a| | |], b as [b| | |], c as [c| | |]; simpl; unfold Rleb in *; repeat (destruct (Rle_dec _ _)); split; intros; try discriminate; auto; try lra.
Qed.

Section B.
Variable L : libm.
Let AF := ArithF L.
#[local] Existing Instance AF.
Local Open Scope Z_scope.
Definition key (x : spec_float) : Z * (Z * Z) :=
  match x with
  | S754_infinity false => (2, (0, 0)) | S754_infinity true => (-2, (0, 0))
  | S754_zero _ => (0, (0, 0)) | S754_nan => (3, (0, 0))
  | S754_finite false m e => (1, (e, Zpos m)) | S754_finite true m e => (-1, (- e, Zneg m))
  end.
Definition klt (a b : Z * (Z * Z)) : Prop := fst a < fst b \/ (fst a = fst b /\ (fst (snd a) < fst (snd b) \/ (fst (snd a) = fst (snd b) /\ snd (snd a) < snd (snd b)))).
Lemma SFcompare_key a b : a <> S754_nan -> b <> S754_nan ->
  match SFcompare a b with Some Lt => klt (key a) (key b) | Some Gt => klt (key b) (key a) | Some Eq => key a = key b | None => False end.
Proof.
  intros Ha Hb. destruct a as [sa|sa| |sa ma ea], b as [sb|sb| |sb mb eb]; try congruence;
  destruct sa, sb; simpl; unfold klt; simpl; try lia; auto.
  - destruct (Z.compare_spec ea eb) as [->|H|H]; simpl; try lia.
    change (Pos.compare_cont Eq ma mb) with (Pos.compare ma mb).
    destruct (Pos.compare_spec ma mb) as [->|H|H]; simpl; try lia. reflexivity.
  - destruct (Z.compare_spec ea eb) as [->|H|H]; simpl; try lia.
    change (Pos.compare_cont Eq ma mb) with (Pos.compare ma mb).
    destruct (Pos.compare_spec ma mb) as [->|H|H]; simpl; try lia. reflexivity.
Qed.
Lemma ltb_key a b : a <> S754_nan -> b <> S754_nan -> (SFltb a b = true <-> klt (key a) (key b)).
Proof.
  intros Ha Hb. pose proof (SFcompare_key a b Ha Hb) as H. unfold SFltb. destruct (SFcompare a b) as [[| |]|]; try tauto; split; intros; try discriminate; auto.
  - rewrite H in H0. unfold klt in H0. lia.
  - unfold klt in *. lia.
Qed.
Lemma leb_key a b : a <> S754_nan -> b <> S754_nan -> (SFleb a b = true <-> ~ klt (key b) (key a)).
Proof.
  intros Ha Hb. pose proof (SFcompare_key a b Ha Hb) as H. unfold SFleb. destruct (SFcompare a b) as [[| |]|]; try tauto; split; intros; try discriminate; auto.
  - rewrite H. unfold klt. lia.
  - unfold klt in *. lia.
Qed.
Lemma no_nan_F (a : spec_float) : no_nan a <-> a <> S754_nan.
Proof.
  unfold no_nan. simpl. split; [intros H -> ; discriminate|]. intros H. unfold SFeqb.
  pose proof (SFcompare_key a a H H) as K. destruct (SFcompare a a) as [[| |]|]; try tauto; unfold klt in K; lia.
Qed.
Lemma strict_weak_F : @strict_weak spec_float _.
Proof.
  intros a b c Ha Hb Hc. apply no_nan_F in Ha, Hb, Hc. unfold fgt. simpl.
  pose proof (ltb_key b a Hb Ha). pose proof (ltb_key c b Hc Hb). pose proof (ltb_key c a Hc Ha). pose proof (ltb_key a b Ha Hb). unfold klt in *.
  destruct (SFltb b a), (SFltb c b), (SFltb c a), (SFltb a b); split; intros; try discriminate; auto; exfalso; intuition lia.
Qed.
(** [total_cmp]: signed zeros are ordered *)
Definition tkey (x : spec_float) : Z * (Z * Z) := match x with S754_zero true => (0, (0, -1)) | x => key x end.
Lemma tle_key a b : tle64 a b = true <-> ~ klt (tkey b) (tkey a).
Proof.
  destruct (match a with S754_nan => true | _ => false end) eqn:Na.
  { destruct a; try discriminate. destruct b as [[]|[]| |[] m e]; simpl; unfold klt; simpl; split; intros; try discriminate; try lia; reflexivity. }
  destruct (match b with S754_nan => true | _ => false end) eqn:Nb.
  { destruct b; try discriminate. destruct a as [[]|[]| |[] m e]; try discriminate; simpl; unfold klt; simpl; split; intros; try discriminate; try lia; reflexivity. }
  assert (Ha : a <> S754_nan) by (intros ->; discriminate). assert (Hb : b <> S754_nan) by (intros ->; discriminate).
  pose proof (leb_key a b Ha Hb) as H.
  destruct a as [[]|[]| |[] ma ea], b as [[]|[]| |[] mb eb]; try discriminate; simpl in *; unfold klt in *; simpl in *; try exact H; split; intros; try discriminate; try reflexivity; try lia; exfalso; lia.
Qed.
Lemma total_order_F : @total_order spec_float _.
Proof.
  intros a b c. simpl. rewrite !tle_key. unfold klt. lia.
Qed.
End B.
