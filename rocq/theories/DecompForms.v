(** * Final forms of the decomposition lemmas *)
From Coq Require Import List ZArith NArith Arith Bool Lia Reals Lra Permutation Sorted Floats.SpecFloat.
From Verif Require Import Arith Vec Prim Cons Sketch Solve Decomp Api Spec ArithR ArithF ExactSpec DecompSpec SpecLemmas ExactLemmas DecompLemmas
  OrderLemmas WalkLemmas OctLemmas ExactDecomp FaceLemmas PolygonLemmas PolygonExact DecompWitness.
Import ListNotations.

(** ** Stability of the sort *)
Section Stable.
Context {F : Type} {A : Arith F}.
Hypothesis TO : total_order.
Definition same_area (h : heap F) (k : F) (r : ring F) : bool := ftle (signed_area h r) k && ftle k (signed_area h r).
Lemma insert_stable h k r l : filter (same_area h k) (insert_ring h r l) = filter (same_area h k) (r :: l).
Proof.
  induction l as [|x l IH]; auto. cbn [insert_ring]. destruct (ftle (signed_area h r) (signed_area h x)) eqn:E; auto.
  cbn [filter] in *. rewrite IH. destruct (same_area h k r) eqn:Er, (same_area h k x) eqn:Ex; auto. exfalso.
  unfold same_area in *. apply andb_true_iff in Er as [E1 _]. apply andb_true_iff in Ex as [_ E2].
  destruct (TO (signed_area h r) k (signed_area h x)) as [_ T]. rewrite T in E; auto; discriminate.
Qed.
Lemma sort_stable h k l : filter (same_area h k) (sort_rings h l) = filter (same_area h k) l.
Proof.
  induction l as [|x l IH]; auto. cbn [sort_rings fold_right]. fold (sort_rings h l). rewrite insert_stable. cbn [filter]. now rewrite IH.
Qed.
Lemma filter_comm {T} (f g : T -> bool) l : filter f (filter g l) = filter g (filter f l).
Proof.
  induction l as [|x l IH]; auto. simpl. destruct (g x) eqn:Eg, (f x) eqn:Ef; simpl; rewrite ?Ef, ?Eg, ?IH; auto.
Qed.
Hypothesis SW : strict_weak.
Lemma C37_lemma h s : turns_ok h (directed h s) -> exists ws, all_walks h (directed h s) (length (directed h s)) ws /\
  (forall ws', all_walks h (directed h s) (length (directed h s)) ws' -> ws' = ws) /\
  let found := map (fun w => RSegments (at_positions (directed h s) w)) ws ++ map RCircle (circles h s) in
  let positive := filter (fun r => fgt (signed_area h r) f0) found in
  Permutation (fst (find_rings h s)) positive /\
  StronglySorted (fun a b => ftle (signed_area h a) (signed_area h b) = true) (fst (find_rings h s)) /\
  (forall k, filter (same_area h k) (fst (find_rings h s)) = filter (same_area h k) positive) /\
  snd (find_rings h s) = flat_map (fun i => if existsb (Nat.eqb i) (concat ws) then [] else at_positions (forward h s) [i]) (seq 0 (length (forward h s))).
Proof.
  intros Ht. destruct (rings_by_walks SW h s Ht) as (ws & Aw & Ef & Es). exists ws. split; auto.
  split; [intros ws' Aw'; eapply all_walks_fun; eauto|]. cbv zeta.
  split; [rewrite Ef; apply filter_perm, sort_perm|]. split; [apply (rings_sorted TO)|]. split; auto.
  intros k. rewrite Ef. rewrite filter_comm, sort_stable. apply filter_comm.
Qed.
End Stable.
Lemma C37_circle_lemma h s l : valid h s -> geo_finite h s -> registered s (PCircle l) ->
  (In (RCircle (getC h l)) (fst (find_rings h s)) <-> c_radius (getC h l) <> Fin 0).
Proof.
  intros V G R. destruct (G _ R) as [Hd _]. simpl in Hd. apply andb_true_iff in Hd as [Hd _]. destruct (c_radius (getC h l)) as [r| | |] eqn:Er; try discriminate.
  assert (Ar : signed_area h (RCircle (getC h l)) = Fin (r * r * PI)) by (simpl; rewrite Er; reflexivity).
  assert (P : fgt (signed_area h (RCircle (getC h l))) f0 = true <-> r <> 0%R).
  { rewrite Ar. unfold fgt. rewrite f0_R, lt_R. unfold Rltb. pose proof PI_RGT_0 as P. destruct (Rlt_dec _ _) as [H|H]; split; intros H2; auto; try discriminate.
    - intros ->. lra.
    - exfalso. apply H. apply Rmult_lt_0_compat; auto. nra. }
  destruct (find_rings_spec h s) as (ws & _ & -> & _). rewrite filter_In, P. split.
  - intros [_ H] [= ->]. auto.
  - intros H. split; [|intros ->; auto]. apply (Permutation_in _ (Permutation_sym (sort_perm h _))). apply in_or_app. right. apply in_map.
    unfold circles. apply in_flat_map. apply (valid_reg _ _ _ V) in R. unfold cells in R. apply in_map_iff in R as ([id c] & E & H2). simpl in E. subst c. exists (id, PCircle l). split; auto. now left.
Qed.
(** ** C35, C36 *)
Lemma in_prims_reg {F} {A : Arith F} (h : heap F) s id c : valid h s -> In (id, c) (s_prims s) -> registered s c.
Proof. intros V H. apply (valid_reg _ _ _ V). now apply (in_map snd) in H. Qed.
Lemma C35_form {F} {A : Arith F} (h : heap F) s r : valid h s -> In r (fst (find_rings h s)) ->
  match r with
  | RCircle c => exists l, registered s (PCircle l) /\ c = getC h l
  | RSegments l => closed_chain h l /\ forall g, In g l -> exists c g0, registered s c /\ seg_of h c = Some g0 /\ (g = g0 \/ g = seg_reverse g0)
  end.
Proof.
  intros V H. apply C35_lemma in H. destruct r as [c|l].
  - destruct H as (l & id & Hi & E). exists l. split; auto. eapply in_prims_reg; eauto.
  - destruct H as [H1 H2]. split; auto. intros g Hg. destruct (H2 g Hg) as (c & id & g0 & Hi & E & O). exists c, g0. split; [eapply in_prims_reg; eauto | auto].
Qed.
(** ** C42 *)
Section Rev2.
Context {F : Type} {A : Arith F}.
Lemma reverse_ends h (g : seg F) : get_start h (seg_reverse g) = get_end h g /\ get_end h (seg_reverse g) = get_start h g.
Proof. destruct g; auto. Qed.
Lemma chain_snoc h (l : list (seg F)) x : chain h (l ++ [x]) <-> chain h l /\ (forall y, l <> [] -> v2eq (get_end h (last l y)) (get_start h x) = true).
Proof.
  induction l as [|a l IH]; simpl; [intuition congruence|]. destruct l as [|b l]; simpl in *.
  - split; [intros [H _]; split; auto | intros [_ H]; split; auto; apply (H a); discriminate].
  - rewrite IH. split.
    + intros [H1 [H2 H3]]. split; [split; auto|]. intros y _. apply H3. discriminate.
    + intros [[H1 H2] H3]. split; auto. split; auto. intros y _. apply (H3 y). discriminate.
Qed.
Hypothesis EQ : eq_laws.
Lemma last_map (f : seg F -> seg F) l x : last (map f l) (f x) = f (last l x).
Proof. induction l as [|a l IH]; auto. destruct l; auto. Qed.
Lemma chain_reverse h (l : list (seg F)) : chain h l -> chain h (map seg_reverse (rev l)).
Proof.
  induction l as [|a l IH]; auto. intros H. simpl rev. rewrite map_app. cbn [map]. apply chain_snoc. destruct l as [|b l]; [split; [exact I|]; intros y Hy; destruct Hy; auto|].
  destruct H as [H1 H2]. split; auto. intros y _. cbn [rev]. rewrite map_app. cbn [map]. rewrite last_last.
  destruct (reverse_ends h a) as [-> _]. destruct (reverse_ends h b) as [_ ->]. now apply (v2_sym EQ).
Qed.
Lemma closed_reverse h (l : list (seg F)) : closed_chain h l -> closed_chain h (map seg_reverse (rev l)).
Proof.
  intros (x & t & -> & C & L). assert (C' := chain_reverse h _ C). destruct (rev (x :: t)) as [|y u] eqn:E.
  { apply (f_equal (@length _)) in E. rewrite rev_length in E. discriminate. }
  cbn [map] in *. exists (seg_reverse y), (map seg_reverse u). split; auto. split; auto.
  assert (Ey : y = last (x :: t) x).
  { assert (Q : x :: t = rev (y :: u)) by (rewrite <- E, rev_involutive; auto). rewrite Q. simpl. now rewrite last_last. }
  assert (Ex : last (seg_reverse y :: map seg_reverse u) (seg_reverse y) = seg_reverse x).
  { change (seg_reverse y :: map seg_reverse u) with (map seg_reverse (y :: u)). rewrite last_map. f_equal. rewrite <- E. simpl. now rewrite last_last. }
  rewrite Ex. destruct (reverse_ends h x) as [_ ->]. destruct (reverse_ends h y) as [-> _]. rewrite Ey. now apply (v2_sym EQ).
Qed.
End Rev2.
Lemma C42_area_lemma h l : Forall (seg_fin h) l -> signed_area h (RSegments (map seg_reverse (rev l))) = fneg (signed_area h (RSegments l)).
Proof.
  intros Fl. rewrite !area_R; auto.
  - rewrite neg_R. f_equal. apply (shoelace_reverse h l).
  - apply Forall_forall. intros g Hg. apply in_map_iff in Hg as (x & <- & Hx). apply in_rev in Hx. rewrite Forall_forall in Fl. now apply seg_fin_reverse, Fl.
Qed.
(** the direction of a reversed line *)
Lemma atan2_opp x y : (x <> 0 \/ y <> 0)%R -> exists k, atan2R (- y) (- x) = (atan2R y x + PI + 2 * PI * IZR k)%R.
Proof.
  intros H. pose proof PI_RGT_0 as P. unfold atan2R.
  destruct (Rlt_dec 0 x) as [Hx|Hx].
  - destruct (Rlt_dec 0 (- x)); [lra|]. destruct (Rlt_dec (- x) 0); [|lra]. replace (- y / - x)%R with (y / x)%R by (field; lra).
    destruct (Rlt_dec (- y) 0); [exists (-1)%Z | exists 0%Z]; lra.
  - destruct (Rlt_dec x 0) as [Hx2|Hx2].
    + destruct (Rlt_dec 0 (- x)); [|lra]. replace (- y / - x)%R with (y / x)%R by (field; lra). destruct (Rlt_dec y 0); [exists 0%Z | exists (-1)%Z]; lra.
    + destruct (Rlt_dec 0 (- x)); [lra|]. destruct (Rlt_dec (- x) 0); [lra|]. assert (y <> 0)%R by (destruct H; lra).
      destruct (Rlt_dec 0 (- y)), (Rlt_dec 0 y), (Rlt_dec (- y) 0), (Rlt_dec y 0); try lra; [exists 0%Z | exists (-1)%Z]; lra.
Qed.
Lemma C42_direction_lemma h l : from_pt h (SLine l) <> to_pt h (SLine l) -> exists k, direction h (seg_reverse (SLine l)) = (direction h (SLine l) + PI + 2 * PI * IZR k)%R.
Proof.
  intros H. unfold direction. destruct (rev_pts h (SLine l)) as [-> ->]. set (a := from_pt h (SLine l)) in *. set (b := to_pt h (SLine l)) in *.
  replace (snd a - snd b)%R with (- (snd b - snd a))%R by lra. replace (fst a - fst b)%R with (- (fst b - fst a))%R by lra. apply atan2_opp.
  destruct (Req_dec (fst b - fst a) 0) as [E1|]; auto. destruct (Req_dec (snd b - snd a) 0) as [E2|]; auto. exfalso. apply H. destruct a, b. simpl in *. f_equal; lra.
Qed.

(** ** Checking polygons of octilinear sketches *)
Definition zpoly (pts : list (Z * Z)) (lns : list (nat * nat)) (w : list nat) : bool :=
  let D := zD lns in let n := length lns in
  Nat.leb 3 (length w) && forallb (fun i => Nat.ltb i (length D)) w &&
  (fix nd l := match l with [] => true | x :: l' => negb (existsb (Nat.eqb x) l') && nd l' end) w &&
  forallb (fun ij => zeq2 (zP pts (snd (zl lns (fst ij)))) (zP pts (fst (zl lns (snd ij))))) (combine w (tl w ++ [hd 0 w])) &&
  forallb (fun i => forallb (fun j => Nat.eqb i j || negb (zeq2 (zP pts (fst (zl lns i))) (zP pts (fst (zl lns j))))) w) w &&
  forallb (fun ij => forallb (fun m => negb (zeq2 (zP pts (fst (zl lns m))) (zP pts (fst (zl lns (snd ij))))) || Nat.eqb m (snd ij) || Nat.eqb m (opposite n (fst ij)))
     (seq 0 (length D))) (combine w (tl w ++ [hd 0 w])).
Lemma follows_combine w i j : follows w i j -> In (i, j) (combine w (tl w ++ [hd 0 w])).
Proof.
  intros [(a & b & ->)|(a & ->)].
  - generalize (hd 0 (a ++ i :: j :: b)). intros z. induction a as [|x a IH]; [now left|]. destruct a as [|y a]; [right; left; reflexivity | right; apply IH].
  - simpl. assert (G : forall (a : list nat) z, In (i, j) (combine (z :: a ++ [i]) ((a ++ [i]) ++ [j]))).
    { induction a0 as [|x a0 IH]; intros z; simpl; [auto|]. right. apply IH. }
    apply G.
Qed.
Lemma nd_sound (l : list nat) : (fix nd l := match l with [] => true | x :: l' => negb (existsb (Nat.eqb x) l') && nd l' end) l = true -> NoDup l.
Proof.
  induction l as [|x l IH]; intros H; constructor; apply andb_true_iff in H as [H1 H2]; auto.
  intros Hx. apply negb_true_iff in H1. assert (E : existsb (Nat.eqb x) l = true) by (apply existsb_exists; exists x; split; auto; apply Nat.eqb_refl). congruence.
Qed.
Lemma zpoly_sound pts lns w : zok pts lns = true -> zpoly pts lns w = true -> isolated_polygon (oct_heap pts lns) (oct_sketch pts lns) w.
Proof.
  intros OK H. unfold zpoly in H. apply andb_true_iff in H as [H Ha]. apply andb_true_iff in H as [H Hd]. apply andb_true_iff in H as [H Hc].
  apply andb_true_iff in H as [H Hn]. apply andb_true_iff in H as [Hs Hb]. rewrite forallb_forall in Ha, Hd, Hc, Hb. apply Nat.leb_le in Hs.
  assert (D := directed_oct pts lns).
  assert (N : forall i g, nth_error (directed (oct_heap pts lns) (oct_sketch pts lns)) i = Some g -> i < length (zD lns) /\ In (zl lns i) (zD lns) /\ g = sg (zl lns i)).
  { intros i g. rewrite D, nth_error_map. destruct (nth_error (zD lns) i) eqn:E; [|discriminate]. intros [= <-]. split; [apply nth_error_Some; congruence|].
    unfold zl. rewrite (nth_error_nth _ _ _ E). split; auto. eapply nth_error_In; eauto. }
  constructor; auto.
  - now apply nd_sound.
  - intros i Hi. assert (Hi' := Hb i Hi). apply Nat.ltb_lt in Hi'. exists (mkLine (fst (zl lns i)) (snd (zl lns i))). split.
    + rewrite D, nth_error_map, (nth_error_nth' _ (0, 0) Hi'). reflexivity.
    + change (SLine _) with (sg (zl lns i)). rewrite seg_eq_oct; auto using zl_in. unfold zsame, zeq2. now rewrite !Z.eqb_refl.
  - intros i j g g' Fo Hi Hj. destruct (N _ _ Hi) as (_ & I1 & ->). destruct (N _ _ Hj) as (_ & I2 & ->).
    rewrite start_oct, end_oct, v2eq_oct; auto. apply (Hc (i, j)). now apply follows_combine.
  - intros i j g g' Wi Wj Hi Hj. destruct (N _ _ Hi) as (_ & I1 & ->). destruct (N _ _ Hj) as (_ & I2 & ->).
    rewrite !start_oct, v2eq_oct; auto. intros E. specialize (Hd i Wi). rewrite forallb_forall in Hd. specialize (Hd j Wj). rewrite E in Hd. rewrite orb_false_r in Hd. now apply Nat.eqb_eq.
  - intros i j m g g' Fo Hm Hj. destruct (N _ _ Hm) as (L & I1 & ->). destruct (N _ _ Hj) as (_ & I2 & ->).
    rewrite !start_oct, v2eq_oct; auto. intros E. specialize (Ha (i, j) (follows_combine _ _ _ Fo)). rewrite forallb_forall in Ha. specialize (Ha m). rewrite in_seq in Ha.
    specialize (Ha (conj (Nat.le_0_l _) L)). cbn [fst snd] in Ha. rewrite E in Ha. rewrite forward_oct, map_length; auto. cbn [negb orb] in Ha.
    apply orb_true_iff in Ha as [Ha|Ha]; apply Nat.eqb_eq in Ha; auto.
Qed.
