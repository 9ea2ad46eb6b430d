(** * Computing rings of octilinear sketches in exact arithmetic

    For sketches of lines between points with integer coordinates whose directions are
    multiples of 45 degrees, [find_rings] in exact arithmetic is computed by a function on
    integers.  Used for examples and counterexamples only. *)
From Coq Require Import List ZArith NArith Arith Bool Lia Reals Lra Permutation.
From Verif Require Import Arith Vec Prim Cons Sketch Decomp Spec ArithR ExactSpec DecompSpec ExactLemmas DecompLemmas.
Import ListNotations.

(** ** Angles as multiples of pi/4 *)
Definition oct (k : Z) : xR := Fin (IZR k * (PI / 4)).
Lemma PI4_pos : (0 < PI / 4)%R. Proof. pose proof PI_RGT_0. lra. Qed.
Lemma oct_lt a b : flt (oct a) (oct b) = Z.ltb a b.
Proof.
  unfold oct. simpl. unfold Rltb. pose proof PI4_pos as P. destruct (Z.ltb_spec a b) as [H|H]; destruct (Rlt_dec _ _) as [H'|H']; auto; exfalso.
  - apply H'. apply Rmult_lt_compat_r; auto. now apply IZR_lt.
  - apply Rmult_lt_reg_r in H'; auto. apply lt_IZR in H'. lia.
Qed.
Lemma oct_add a b : oct a +f oct b = oct (a + b).
Proof. unfold oct. simpl. f_equal. rewrite plus_IZR. lra. Qed.
Lemma oct_sub a b : oct a -f oct b = oct (a - b).
Proof. unfold oct. simpl. f_equal. rewrite minus_IZR. lra. Qed.
Lemma oct_tau : ftau = oct 8. Proof. unfold oct. simpl. f_equal. lra. Qed.
Lemma oct_pi : fpi = oct 4. Proof. unfold oct. simpl. f_equal. lra. Qed.
Lemma oct_0 : f0 = oct 0. Proof. rewrite f0_R. unfold oct. f_equal. lra. Qed.
Definition zdiff (a b : Z) : Z :=
  let a := if Z.ltb 8 a then (a - 8)%Z else a in
  let a := if Z.ltb a 0 then (a + 8)%Z else a in
  let b := if Z.ltb 8 b then (b - 8)%Z else b in
  let b := if Z.ltb b 0 then (b + 8)%Z else b in
  let d := (b - a)%Z in
  let d := if Z.ltb 8 d then (d - 8)%Z else d in
  if Z.ltb d 0 then (d + 8)%Z else d.
Lemma oct_if (c : bool) a b : (if c then oct a else oct b) = oct (if c then a else b).
Proof. now destruct c. Qed.
Lemma oct_diff a b : angle_difference (oct a) (oct b) = oct (zdiff a b).
Proof.
  unfold angle_difference, zdiff, fgt. rewrite !oct_tau, !oct_0.
  repeat (rewrite ?oct_lt, ?oct_sub, ?oct_add, ?oct_if). reflexivity.
Qed.
Lemma Int_part_div k : Int_part (IZR k / 8) = (k / 8)%Z.
Proof.
  symmetry. unfold Int_part. assert (H : up (IZR k / 8) = (k / 8 + 1)%Z); [|lia].
  symmetry. pose proof (Z.div_mod k 8 ltac:(lia)) as D. pose proof (Z.mod_pos_bound k 8 ltac:(lia)) as B.
  assert (E : IZR k = (8 * IZR (k / 8) + IZR (k mod 8))%R) by (rewrite <- mult_IZR, <- plus_IZR; f_equal; exact D).
  assert (B1 : (0 <= IZR (k mod 8) < 8)%R) by (split; [apply IZR_le | apply IZR_lt]; lia).
  apply tech_up; rewrite plus_IZR; lra.
Qed.
Lemma oct_rem k : frem (oct k) (f2 *f fpi) = oct (Z.rem k 8).
Proof.
  assert (E2 : f2 *f fpi = Fin (2 * PI)) by (unfold f2; simpl; f_equal; lra). rewrite E2. unfold oct. simpl. pose proof PI_RGT_0 as P.
  destruct (Req_EM_T (2 * PI) 0) as [H|_]; [lra|]. f_equal.
  replace (IZR k * (PI / 4) / (2 * PI))%R with (IZR k / 8)%R by (field; lra).
  assert (T : Rtrunc (IZR k / 8) = IZR (Z.quot k 8)).
  { unfold Rtrunc. destruct (Rlt_dec (IZR k / 8) 0) as [H|H].
    - assert (Hk : (k < 0)%Z) by (apply lt_IZR; lra). replace (- (IZR k / 8))%R with (IZR (- k) / 8)%R by (rewrite opp_IZR; lra).
      rewrite Int_part_div, <- opp_IZR. f_equal. rewrite <- (Z.quot_div_nonneg (- k) 8) by lia. rewrite Z.quot_opp_l by lia. lia.
    - assert (Hk : (0 <= k)%Z) by (apply le_IZR; lra). rewrite Int_part_div. f_equal. now rewrite Z.quot_div_nonneg by lia. }
  rewrite T. pose proof (Z.quot_rem k 8 ltac:(lia)) as D.
  replace (IZR k) with (8 * IZR (Z.quot k 8) + IZR (Z.rem k 8))%R by (rewrite <- mult_IZR, <- plus_IZR; f_equal; symmetry; exact D).
  replace (Z.quot (8 * Z.quot k 8 + Z.rem k 8) 8) with (Z.quot k 8) by (f_equal; lia). lra.
Qed.
(** direction of (dx, dy) if it is a multiple of pi/4 *)
Definition zcode (dx dy : Z) : option Z :=
  if Z.ltb 0 dx then (if Z.eqb dy 0 then Some 0 else if Z.eqb dy dx then Some 1 else if Z.eqb dy (- dx) then Some (-1) else None)%Z
  else if Z.ltb dx 0 then (if Z.eqb dy 0 then Some 4 else if Z.eqb dy (- dx) then Some 3 else if Z.eqb dy dx then Some (-3) else None)%Z
  else if Z.ltb 0 dy then Some 2%Z else if Z.ltb dy 0 then Some (-2)%Z else Some 0%Z.
Lemma atan_m1 : atan (-1) = (- (PI / 4))%R.
Proof. replace (-1)%R with (- (1))%R by lra. rewrite atan_opp, atan_1. reflexivity. Qed.
Lemma zcode_atan dx dy k : zcode dx dy = Some k -> atan2R (IZR dy) (IZR dx) = (IZR k * (PI / 4))%R.
Proof.
  unfold zcode, atan2R. intros H.
  destruct (Z.ltb_spec 0 dx) as [Hx|Hx].
  { assert (Hx' : (0 < IZR dx)%R) by now apply IZR_lt. destruct (Rlt_dec 0 (IZR dx)); [|lra].
    destruct (Z.eqb_spec dy 0) as [->|]; [injection H as <-; unfold Rdiv; rewrite Rmult_0_l, atan_0; lra|].
    destruct (Z.eqb_spec dy dx) as [->|]; [injection H as <-; unfold Rdiv; rewrite Rinv_r by lra; rewrite atan_1; lra|].
    destruct (Z.eqb_spec dy (- dx)) as [->|]; [|discriminate]. injection H as <-. rewrite opp_IZR.
    replace (- IZR dx / IZR dx)%R with (-1)%R by (field; lra). rewrite atan_m1. lra. }
  destruct (Rlt_dec 0 (IZR dx)) as [H0|_]; [apply lt_IZR in H0; lia|].
  destruct (Z.ltb_spec dx 0) as [Hx2|Hx2].
  { assert (Hx' : (IZR dx < 0)%R) by now apply IZR_lt. destruct (Rlt_dec (IZR dx) 0); [|lra].
    destruct (Z.eqb_spec dy 0) as [->|]. { injection H as <-. destruct (Rlt_dec 0 0); [lra|]. unfold Rdiv. rewrite Rmult_0_l, atan_0. lra. }
    destruct (Z.eqb_spec dy (- dx)) as [->|].
    { injection H as <-. rewrite opp_IZR. destruct (Rlt_dec (- IZR dx) 0); [lra|]. replace (- IZR dx / IZR dx)%R with (-1)%R by (field; lra). rewrite atan_m1. lra. }
    destruct (Z.eqb_spec dy dx) as [->|]; [|discriminate]. injection H as <-. destruct (Rlt_dec (IZR dx) 0); [|lra].
    unfold Rdiv. rewrite Rinv_r by lra. rewrite atan_1. lra. }
  destruct (Rlt_dec (IZR dx) 0) as [H0|_]; [apply lt_IZR in H0; lia|].
  destruct (Z.ltb_spec 0 dy) as [Hy|Hy].
  { injection H as <-. destruct (Rlt_dec 0 (IZR dy)) as [|H0]; [lra|]. exfalso. apply H0. now apply IZR_lt. }
  destruct (Rlt_dec 0 (IZR dy)) as [H0|_]; [apply lt_IZR in H0; lia|].
  destruct (Z.ltb_spec dy 0) as [Hy2|Hy2].
  { injection H as <-. destruct (Rlt_dec (IZR dy) 0) as [|H0]; [lra|]. exfalso. apply H0. now apply IZR_lt. }
  destruct (Rlt_dec (IZR dy) 0) as [H0|_]; [apply lt_IZR in H0; lia|]. injection H as <-. lra.
Qed.

Section Oct.
Variables (pts : list (Z * Z)) (lns : list (nat * nat)).
Definition oct_heap : heap xR :=
  mkHeap (map (fun p => Point2_new (Fin (IZR (fst p))) (Fin (IZR (snd p)))) pts) (map (fun l => mkLine (fst l) (snd l)) lns) [] [] [].
Definition oct_sketch : sketch :=
  mkSketch (combine (map N.of_nat (seq 0 (length pts + length lns))) (map PPoint (seq 0 (length pts)) ++ map PLine (seq 0 (length lns))))
    (N.of_nat (length pts + length lns)) [].
Definition zP (i : nat) : Z * Z := nth i pts (0, 0)%Z.
Definition zD : list (nat * nat) := lns ++ map (fun l => (snd l, fst l)) lns.
Definition zok : bool := forallb (fun l => Nat.ltb (fst l) (length pts) && Nat.ltb (snd l) (length pts) &&
  match zcode (fst (zP (snd l)) - fst (zP (fst l))) (snd (zP (snd l)) - snd (zP (fst l))) with Some _ => true | None => false end) zD.
Hypothesis OK : zok = true.
Let h := oct_heap.
Definition sg (l : nat * nat) : seg xR := SLine (mkLine (fst l) (snd l)).
Definition rP (p : Z * Z) : xR * xR := (Fin (IZR (fst p)), Fin (IZR (snd p))).
Lemma ok_in l : In l zD -> fst l < length pts /\ snd l < length pts /\
  exists k, zcode (fst (zP (snd l)) - fst (zP (fst l))) (snd (zP (snd l)) - snd (zP (fst l))) = Some k.
Proof.
  intros H. unfold zok in OK. rewrite forallb_forall in OK. specialize (OK _ H). apply andb_true_iff in OK as [E1 E2].
  apply andb_true_iff in E1 as [E0 E1]. apply Nat.ltb_lt in E0, E1. split; auto. split; auto.
  destruct (zcode _ _) as [k|]; [eauto|discriminate].
Qed.
Lemma getP_oct i : i < length pts -> getP h i = Point2_new (Fin (IZR (fst (zP i)))) (Fin (IZR (snd (zP i)))).
Proof.
  intros H. unfold getP, h, oct_heap, zP. simpl. erewrite nth_indep by now rewrite map_length.
  now rewrite (map_nth (fun p => Point2_new (Fin (IZR (fst p))) (Fin (IZR (snd p)))) pts (0, 0)%Z i).
Qed.
Lemma start_oct l : In l zD -> get_start h (sg l) = rP (zP (fst l)).
Proof. intros H. destruct (ok_in l H) as (H1 & H2 & _). simpl. unfold pdata. rewrite getP_oct by auto. reflexivity. Qed.
Lemma end_oct l : In l zD -> get_end h (sg l) = rP (zP (snd l)).
Proof. intros H. destruct (ok_in l H) as (H1 & H2 & _). simpl. unfold pdata. rewrite getP_oct by auto. reflexivity. Qed.
Definition zeq2 (a b : Z * Z) : bool := Z.eqb (fst a) (fst b) && Z.eqb (snd a) (snd b).
Lemma feq_Z a b : feq (Fin (IZR a)) (Fin (IZR b)) = Z.eqb a b.
Proof.
  simpl. unfold Reqb. destruct (Req_EM_T _ _) as [H|H]; destruct (Z.eqb_spec a b) as [E|E]; auto.
  - apply eq_IZR in H. tauto.
  - subst. tauto.
Qed.
Lemma v2eq_oct a b : v2eq (rP a) (rP b) = zeq2 a b.
Proof. unfold v2eq, rP, zeq2. cbn [fst snd]. now rewrite !feq_Z. Qed.
Lemma feq_0 : feq (f0 : xR) f0 = true.
Proof. rewrite f0_R. apply (feq_Z 0 0). Qed.
Lemma point_eq_oct i j : i < length pts -> j < length pts -> point_eq (getP h i) (getP h j) = zeq2 (zP i) (zP j).
Proof.
  intros Hi Hj. rewrite !getP_oct by auto. unfold point_eq, Point2_new. cbn [p_x p_y p_gx p_gy]. rewrite !feq_Z, feq_0, !andb_true_r. reflexivity.
Qed.
Definition zsame (l m : nat * nat) : bool := zeq2 (zP (fst l)) (zP (fst m)) && zeq2 (zP (snd l)) (zP (snd m)).
Lemma seg_eq_oct l m : In l zD -> In m zD -> seg_eq h (sg l) (sg m) = zsame l m.
Proof.
  intros Hl Hm. destruct (ok_in l Hl) as (? & ? & _), (ok_in m Hm) as (? & ? & _). unfold seg_eq, sg, line_eq, zsame. cbn [l_start l_end].
  now rewrite !point_eq_oct.
Qed.
Lemma eor_oct l m : In l zD -> In m zD -> equals_or_reverse_equals h (sg l) (sg m) = zsame l m || zsame l (snd m, fst m).
Proof.
  intros Hl Hm. unfold equals_or_reverse_equals, reverse_equals. rewrite seg_eq_oct by auto. f_equal.
  change (seg_reverse (sg m)) with (sg (snd m, fst m)). apply seg_eq_oct; auto.
  unfold zD in *. apply in_or_app. apply in_app_or in Hm as [Hm|Hm]; [right; apply in_map_iff; now exists m|].
  left. apply in_map_iff in Hm as ([a b] & <- & Hm). exact Hm.
Qed.
Definition zang (l : nat * nat) : Z :=
  match zcode (fst (zP (snd l)) - fst (zP (fst l))) (snd (zP (snd l)) - snd (zP (fst l))) with Some k => k | None => 0%Z end.
Lemma angle_oct l : In l zD -> seg_start_angle h (sg l) = oct (zang l).
Proof.
  intros H. destruct (ok_in l H) as (H1 & H2 & k & Hk). unfold seg_start_angle, sg, pdata. cbn [l_start l_end]. rewrite !getP_oct by auto.
  unfold p_data, Point2_new, zang. rewrite Hk. cbn [p_x p_y fst snd]. unfold oct. simpl. rewrite <- !minus_IZR. f_equal. now apply zcode_atan.
Qed.
Definition zturn (l m : nat * nat) : Z := zdiff (Z.rem (zang l + 4) 8) (zang m).
Definition zbest (l : list (nat * Z)) : option nat :=
  match l with [] => None | x :: l' => Some (fst (fold_left (fun a b => if Z.ltb (snd b) (snd a) then a else b) l' x)) end.
Definition znext (cur : nat * nat) (used : list nat) : option nat :=
  zbest (flat_map (fun p => if existsb (Nat.eqb (fst p)) used then []
      else if zeq2 (zP (snd cur)) (zP (fst (snd p))) && negb (zsame (snd p) cur || zsame (snd p) (snd cur, fst cur))
           then [(fst p, zturn cur (snd p))] else []) (combine (seq 0 (length zD)) zD)).
Definition zl (j : nat) : nat * nat := nth j zD (0, 0).
Definition zs (j : nat) : nat * seg xR := (j, sg (zl j)).
Lemma next_oct cur used : In cur zD -> find_next_segment h (map sg zD) (sg cur) used = option_map zs (znext cur used).
Proof.
  intros Hc. unfold find_next_segment, znext, next_matches.
  change (seg_end_angle h (sg cur)) with (seg_start_angle h (sg cur)). rewrite angle_oct, oct_pi, oct_add, <- oct_pi, oct_rem by auto.
  assert (G : forall l b, (forall i x, In (i, x) (combine (seq b (length l)) l) -> zl i = x /\ In x zD) ->
    flat_map (fun p : nat * seg xR => if existsb (Nat.eqb (fst p)) used then [] else
      if continues h (snd p) (sg cur) && negb (equals_or_reverse_equals h (snd p) (sg cur))
      then [(p, angle_difference (oct (Z.rem (zang cur + 4) 8)) (seg_start_angle h (snd p)))] else []) (combine (seq b (length (map sg l))) (map sg l)) =
    map (fun q => (zs (fst q), oct (snd q))) (flat_map (fun p : nat * (nat * nat) => if existsb (Nat.eqb (fst p)) used then []
      else if zeq2 (zP (snd cur)) (zP (fst (snd p))) && negb (zsame (snd p) cur || zsame (snd p) (snd cur, fst cur))
           then [(fst p, zturn cur (snd p))] else []) (combine (seq b (length l)) l))).
  { induction l as [|x l IH]; intros b Hl; [reflexivity|]. cbn [map length seq combine flat_map].
    rewrite IH by (intros; apply Hl; now right). rewrite map_app. f_equal.
    destruct (Hl b x) as [E Hx]; [now left|]. cbn [fst snd]. destruct (existsb _ _); auto.
    unfold continues. rewrite end_oct, start_oct, v2eq_oct, eor_oct by auto. destruct (_ && _); auto.
    cbn [map fst snd]. unfold zs. rewrite E. rewrite angle_oct, oct_diff by auto. reflexivity. }
  rewrite G.
  2:{ intros i x Hi. apply in_enum0 in Hi. split; [unfold zl; now apply nth_error_nth | eapply nth_error_In; eauto]. }
  set (l := flat_map _ _). clearbody l. destruct l as [|x l]; [reflexivity|]. simpl. f_equal.
  assert (K : forall l x, fold_left (fun a b : nat * seg xR * xR => if fgt (snd a) (snd b) then a else b) (map (fun q => (zs (fst q), oct (snd q))) l) (zs (fst x), oct (snd x)) =
     (fun q => (zs (fst q), oct (snd q))) (fold_left (fun a b => if Z.ltb (snd b) (snd a) then a else b) l x)).
  { clear. induction l as [|y l IH]; intros x; [reflexivity|]. cbn [map fold_left]. replace (fgt (snd (zs (fst x), oct (snd x))) (snd (zs (fst y), oct (snd y)))) with (Z.ltb (snd y) (snd x)) by (symmetry; apply oct_lt).
    destruct (Z.ltb (snd y) (snd x)); apply IH. }
  rewrite K. reflexivity.
Qed.
Fixpoint zwalk (used : list nat) (p0 : Z * Z) (n : nat) (acc : list nat) (cur : nat) : option (list nat) :=
  match n with
  | O => None
  | S n' => let acc' := acc ++ [cur] in
      if zeq2 (zP (snd (zl cur))) p0 then Some acc'
      else match znext (zl cur) used with None => None | Some nx => zwalk used p0 n' acc' nx end
  end.
Lemma zl_in j : j < length zD -> In (zl j) zD.
Proof. intros H. now apply nth_In. Qed.
Lemma znext_lt cur used j : In cur zD -> znext cur used = Some j -> j < length zD.
Proof.
  intros Hc H. assert (E := next_oct cur used Hc). rewrite H in E. simpl in E. apply next_cand in E as (E & _).
  assert (j < length (map sg zD)) by (apply nth_error_Some; simpl in E; congruence). now rewrite map_length in *.
Qed.
Lemma walk_oct used p0 : forall n acc cur, cur < length zD ->
  walk h (map sg zD) used (rP p0) n (map zs acc) (zs cur) = option_map (map zs) (zwalk used p0 n acc cur).
Proof.
  induction n as [|n IH]; intros acc cur Hc; [reflexivity|]. cbn [walk zwalk]. cbn [zs snd].
  assert (Hi := zl_in cur Hc). rewrite end_oct, v2eq_oct by auto.
  assert (Ea : map zs acc ++ [zs cur] = map zs (acc ++ [cur])) by now rewrite map_app. fold (zs cur). rewrite Ea.
  destruct (zeq2 _ _); auto. rewrite next_oct by auto. destruct (znext (zl cur) used) as [nx|] eqn:En; [|reflexivity]. cbn [option_map].
  apply IH. eapply znext_lt; eauto.
Qed.
Definition zstep (st : list nat * list (list nat)) (i : nat) : list nat * list (list nat) :=
  let (used, rings) := st in
  if existsb (Nat.eqb i) used then st
  else match zwalk used (zP (fst (zl i))) (length zD - 1) [] i with None => st | Some r => (used ++ r, rings ++ [r]) end.
Definition zloop : list nat * list (list nat) := fold_left zstep (seq 0 (length zD)) ([], []).
Lemma loop_oct : ring_loop h (map sg zD) = (fst zloop, map (map zs) (snd zloop)).
Proof.
  unfold ring_loop, zloop. rewrite map_length.
  assert (E : combine (seq 0 (length zD)) (map sg zD) = map zs (seq 0 (length zD))).
  { assert (G : forall (l : list (nat * nat)) b, (forall i x, In (i, x) (combine (seq b (length l)) l) -> zl i = x) ->
      combine (seq b (length l)) (map sg l) = map zs (seq b (length l))).
    { induction l as [|x l IH]; intros b Hl; [reflexivity|]. simpl. rewrite IH by (intros; apply Hl; now right). f_equal.
      unfold zs. now rewrite (Hl b x) by now left. }
    apply G. intros i x Hi. apply in_enum0 in Hi. unfold zl. now apply nth_error_nth. }
  rewrite E.
  assert (G : forall l st, (forall i, In i l -> i < length zD) -> fold_left (ring_step h (map sg zD)) (map zs l) (fst st, map (map zs) (snd st)) =
    (fst (fold_left zstep l st), map (map zs) (snd (fold_left zstep l st)))).
  { induction l as [|i l IH]; intros st Hl; [reflexivity|]. cbn [map fold_left]. rewrite <- IH by (intros; apply Hl; now right). f_equal.
    destruct st as [used rings]. unfold ring_step, zstep. cbn [zs fst snd]. destruct (existsb _ _); auto.
    rewrite map_length. assert (Hi : i < length zD) by (apply Hl; now left). rewrite start_oct by now apply zl_in.
    pose proof (walk_oct used (zP (fst (zl i))) (length zD - 1) [] i Hi) as W. simpl map in W. rewrite W. clear W.
    destruct (zwalk _ _ _ _ _) as [r|]; [|reflexivity]. cbn [option_map fst snd]. f_equal.
    - f_equal. rewrite map_map. simpl. now rewrite map_id.
    - now rewrite map_app. }
  apply (G (seq 0 (length zD)) ([], [])). intros i Hi. apply in_seq in Hi. lia.
Qed.
(** twice the signed area *)
Definition zarea (w : list nat) : Z :=
  fold_left (fun a j => let p := zP (fst (zl j)) in let q := zP (snd (zl j)) in (a + (fst p * snd q - fst q * snd p))%Z) w 0%Z.
Definition zring (w : list nat) : ring xR := RSegments (map (fun j => sg (zl j)) w).
Lemma area_oct w : Forall (fun j => j < length zD) w -> signed_area h (zring w) = Fin (IZR (zarea w) / 2).
Proof.
  intros H. unfold zring, signed_area, zarea.
  assert (G : forall w a, Forall (fun j => j < length zD) w -> fold_left (fun area s => let st := get_start h s in let en := get_end h s in
      area +f (fst st *f snd en -f fst en *f snd st)) (map (fun j => sg (zl j)) w) (Fin (IZR a)) =
      Fin (IZR (fold_left (fun a j => let p := zP (fst (zl j)) in let q := zP (snd (zl j)) in (a + (fst p * snd q - fst q * snd p))%Z) w a))).
  { induction w0 as [|j w0 IH]; intros a Hw; [reflexivity|]. inversion Hw; subst. cbn [map fold_left]. cbv zeta.
    rewrite start_oct, end_oct by now apply zl_in. cbn [rP fst snd]. rewrite <- IH by auto. f_equal. simpl. f_equal.
    rewrite plus_IZR, minus_IZR, !mult_IZR. reflexivity. }
  rewrite f0_R, G by auto. unfold f2. simpl. destruct (Req_EM_T _ _) as [E|E]; [exfalso; lra|]. f_equal. f_equal. lra.
Qed.
Fixpoint zinsert (r : list nat) (l : list (list nat)) : list (list nat) :=
  match l with [] => [r] | x :: l' => if Z.leb (zarea r) (zarea x) then r :: l else x :: zinsert r l' end.
Definition zsort (l : list (list nat)) := fold_right zinsert [] l.
Definition zrings : list (list nat) := filter (fun r => Z.ltb 0 (zarea r)) (zsort (snd zloop)).
Definition zunused : list nat := filter (fun i => negb (existsb (Nat.eqb i) (fst zloop))) (seq 0 (length lns)).
Lemma forward_oct : forward h oct_sketch = map sg lns.
Proof.
  unfold forward, oct_sketch. cbn [s_prims].
  assert (G : forall cs b, flat_map (fun kp : N * pcell => match seg_of h (snd kp) with Some g => [g] | None => [] end) (combine (map N.of_nat (seq b (length cs))) cs) =
    flat_map (fun c => match seg_of h c with Some g => [g] | None => [] end) cs).
  { induction cs as [|c cs IH]; intros b; [reflexivity|]. simpl. now rewrite IH. }
  assert (L : length pts + length lns = length (map PPoint (seq 0 (length pts)) ++ map PLine (seq 0 (length lns)))) by (rewrite app_length, !map_length, !seq_length; auto).
  rewrite L. rewrite G. rewrite flat_map_app.
  assert (E1 : forall l, flat_map (fun c => match seg_of h c with Some g => [g] | None => [] end) (map PPoint l) = []) by (induction l; auto).
  rewrite E1. simpl. rewrite flat_map_concat_map, map_map, <- flat_map_concat_map. simpl.
  assert (E2 : forall l : list nat, flat_map (fun x => [SLine (getL h x) : seg xR]) l = map (fun x => SLine (getL h x)) l) by (induction l as [|x l IHl]; simpl; auto; now rewrite IHl).
  rewrite E2. unfold getL, h, oct_heap. simpl. clear. 
  transitivity (map (fun x => sg (nth x lns (0,0))) (seq 0 (length lns))).
  - apply map_ext_in. intros i Hi. apply in_seq in Hi. unfold sg. f_equal.
    rewrite (nth_indep _ _ ((fun l => mkLine (fst l) (snd l)) (0, 0))) by (rewrite map_length; exact (proj2 Hi)).
    now rewrite (map_nth (fun l => mkLine (fst l) (snd l)) lns (0, 0) i).
  - rewrite <- (map_map (fun x => nth x lns (0, 0)) sg). f_equal. apply nth_ext with (d := (0,0)) (d' := (0,0)); [now rewrite map_length, seq_length|].
    intros n Hn. rewrite map_length, seq_length in Hn. 
    rewrite (nth_indep _ _ ((fun x => nth x lns (0, 0)) 0)) by now rewrite map_length, seq_length. rewrite (map_nth (fun x => nth x lns (0,0)) _ 0). now rewrite seq_nth.
Qed.
Lemma directed_oct : directed h oct_sketch = map sg zD.
Proof. unfold directed, zD. rewrite forward_oct, map_app, !map_map. reflexivity. Qed.
Lemma circles_oct : circles h oct_sketch = [].
Proof.
  unfold circles, oct_sketch. cbn [s_prims]. generalize (map N.of_nat (seq 0 (length pts + length lns))). intros ks.
  assert (G : forall (cs : list pcell) ks, (forall c, In c cs -> match c with PCircle _ => False | _ => True end) ->
    flat_map (fun kp : N * pcell => match snd kp with PCircle l => [getC h l] | _ => [] end) (combine ks cs) = []).
  { induction cs as [|c cs IH]; intros [|k ks0] Hc; simpl; auto. rewrite IH by (intros; apply Hc; now right).
    specialize (Hc c (or_introl eq_refl)). destruct c; auto. tauto. }
  apply G. intros c Hc. apply in_app_or in Hc as [Hc|Hc]; apply in_map_iff in Hc as (x & <- & _); auto.
Qed.
Lemma zloop_bound : Forall (Forall (fun j => j < length zD)) (snd zloop).
Proof.
  destruct (ring_loop_greedy h (map sg zD)) as (ws & E & G). rewrite loop_oct in E. injection E as _ E.
  destruct (greedy_nodup _ _ _ _ G) as [_ C]. apply Forall_forall. intros w Hw. apply Forall_forall. intros j Hj.
  assert (Hz : In (zs j) (concat ws)) by (rewrite <- E; apply in_concat; exists (map zs w); split; now apply in_map).
  rewrite Forall_forall in C. specialize (C _ Hz). unfold consistent in C. simpl in C.
  assert (j < length (map sg zD)) by (apply nth_error_Some; congruence). now rewrite map_length in *.
Qed.
Theorem rings_oct : find_rings h oct_sketch = (map zring zrings, map (fun i => sg (nth i lns (0, 0))) zunused).
Proof.
  unfold find_rings. rewrite all_directed, directed_oct, loop_oct, circle_rings_spec, circles_oct, init_forward, forward_oct. simpl map at 2. rewrite app_nil_r.
  pose proof zloop_bound as B. f_equal.
  - rewrite map_map. replace (map (fun x => RSegments (map snd (map zs x))) (snd zloop)) with (map zring (snd zloop)).
    2:{ apply map_ext. intros w. unfold zring. f_equal. rewrite map_map. reflexivity. }
    unfold zrings.
    assert (Hs : forall l, Forall (Forall (fun j => j < length zD)) l -> sort_rings h (map zring l) = map zring (zsort l) /\ Forall (Forall (fun j => j < length zD)) (zsort l)).
    { induction l as [|r l IH]; intros Hl; [split; [reflexivity|constructor]|]. inversion Hl; subst. destruct (IH H2) as [E Bs]. simpl. rewrite E. clear IH E Hl H2.
      induction (zsort l) as [|x l' IH]; [split; [reflexivity | now repeat constructor]|]. inversion Bs; subst. cbn [map insert_ring zinsert].
      rewrite !area_oct by auto. cbn [ftle ArithR xtle xle]. unfold Rleb. destruct (Z.leb_spec (zarea r) (zarea x)) as [Hle|Hgt]; destruct (Rle_dec _ _) as [Hr|Hr].
      - split; [reflexivity | now constructor].
      - exfalso. apply Hr. apply IZR_le in Hle. lra.
      - exfalso. apply IZR_lt in Hgt. lra.
      - destruct (IH H3) as [E B']. rewrite E. split; [reflexivity | now constructor]. }
    destruct (Hs _ B) as [-> Bs]. induction (zsort (snd zloop)) as [|x l IH]; [reflexivity|]. inversion Bs; subst. cbn [map filter].
    replace (fgt (signed_area h (zring x)) f0) with (Rltb 0 (IZR (zarea x) / 2)) by (rewrite area_oct by auto; unfold fgt; now rewrite f0_R).
    unfold Rltb.
    destruct (Z.ltb_spec 0 (zarea x)) as [Hlt|Hge]; destruct (Rlt_dec _ _) as [Hr|Hr]; cbn [map]; rewrite ?IH by auto; try reflexivity; exfalso.
    + apply Hr. apply IZR_lt in Hlt. lra.
    + apply IZR_le in Hge. lra.
  - unfold unused_segments, zunused. rewrite map_length. generalize (fst zloop). intros used.
    assert (G : forall (l : list (nat * nat)) b, (forall i x, In (i, x) (combine (seq b (length l)) l) -> nth i lns (0,0) = x) ->
      flat_map (fun p : nat * seg xR => if existsb (Nat.eqb (fst p)) used then [] else [snd p]) (combine (seq b (length l)) (map sg l)) =
      map (fun i => sg (nth i lns (0,0))) (filter (fun i => negb (existsb (Nat.eqb i) used)) (seq b (length l)))).
    { induction l as [|x l IH]; intros b Hl; [reflexivity|]. simpl. rewrite IH by (intros; apply Hl; now right).
      destruct (existsb _ _); simpl; auto. rewrite (Hl b x) by now left. reflexivity. }
    apply G. intros i x Hi. apply in_enum0 in Hi. now apply nth_error_nth.
Qed.
End Oct.
