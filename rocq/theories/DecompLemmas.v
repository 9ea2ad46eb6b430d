(** * Lemmas on rings and faces, for any arithmetic *)
From Coq Require Import List ZArith NArith Arith Bool Lia Permutation Sorted.
From Verif Require Import Arith Vec Prim Cons Sketch Decomp Spec DecompSpec.
Import ListNotations.

Section DL.
Context {F : Type} {A : Arith F}.

Lemma init_forward (h : heap F) s : init_segments h s = forward h s.
Proof.
  unfold init_segments, forward, cells. rewrite !flat_map_concat_map, map_map. f_equal. apply map_ext.
  intros [k [l|l|l|l]]; reflexivity.
Qed.
Lemma all_directed (h : heap F) s : all_segments h s = directed h s.
Proof. unfold all_segments, directed. now rewrite init_forward. Qed.
Lemma circle_rings_spec (h : heap F) s : circle_rings h s = map RCircle (circles h s).
Proof.
  unfold circle_rings, circles, cells. rewrite !flat_map_concat_map, map_map, concat_map, map_map. f_equal. apply map_ext.
  intros [k [l|l|l|l]]; reflexivity.
Qed.

Lemma in_enum {T} (l : list T) : forall b i x, In (i, x) (combine (seq b (length l)) l) <-> (b <= i /\ nth_error l (i - b) = Some x).
Proof.
  induction l as [|y l IH]; intros b i x; simpl.
  - split; [tauto|]. intros [_ H]. destruct (i - b); discriminate.
  - rewrite IH. split.
    + intros [[= <- <-]|[H1 H2]]; [rewrite Nat.sub_diag; auto|]. split; [lia|].
      replace (i - b) with (S (i - S b)) by lia. exact H2.
    + intros [H1 H2]. destruct (Nat.eq_dec i b) as [->|N].
      * rewrite Nat.sub_diag in H2. injection H2 as ->. now left.
      * right. split; [lia|]. replace (i - b) with (S (i - S b)) in H2 by lia. exact H2.
Qed.
Lemma in_enum0 {T} (l : list T) i x : In (i, x) (combine (seq 0 (length l)) l) <-> nth_error l i = Some x.
Proof. rewrite in_enum, Nat.sub_0_r. intuition lia. Qed.

Lemma existsb_In i l : existsb (Nat.eqb i) l = true <-> In i l.
Proof.
  rewrite existsb_exists. split.
  - intros [x [H E]]. apply Nat.eqb_eq in E. now subst.
  - intros H. exists i. split; auto. apply Nat.eqb_refl.
Qed.
Lemma existsb_nIn i l : existsb (Nat.eqb i) l = false <-> ~ In i l.
Proof. rewrite <- existsb_In. destruct (existsb _ _); split; congruence. Qed.

(** ** Candidates and the choice among them *)
Definition cand (h : heap F) (segs : list (seg F)) (used : list nat) (cur : seg F) (j : nat) (g : seg F) : Prop :=
  nth_error segs j = Some g /\ ~ In j used /\ continues h g cur = true /\ equals_or_reverse_equals h g cur = false.
Definition turn (h : heap F) (cur g : seg F) : F :=
  angle_difference (frem (seg_end_angle h cur +f fpi) (f2 *f fpi)) (seg_start_angle h g).
Lemma in_matches h segs used cur j g t : In ((j, g), t) (next_matches h segs cur used) <->
  cand h segs used cur j g /\ t = turn h cur g.
Proof.
  unfold next_matches, cand, turn. rewrite in_flat_map. split.
  - intros [[i x] [H E]]. apply in_enum0 in H. simpl in E. destruct (existsb _ _) eqn:Eu; [destruct E|].
    destruct (continues h x cur && negb (equals_or_reverse_equals h x cur)) eqn:Ec; [|destruct E].
    apply andb_true_iff in Ec as [E1 E2]. apply negb_true_iff in E2. apply existsb_nIn in Eu.
    destruct E as [E|[]]. injection E as <- <- <-. auto.
  - intros [(H & Hu & E1 & E2) ->]. exists (j, g). rewrite in_enum0. split; auto. simpl.
    apply existsb_nIn in Hu. rewrite Hu, E1, E2. simpl. auto.
Qed.
Lemma reduce_in l p : reduce_max l = Some p -> exists t : F, In (p, t) l.
Proof.
  destruct l as [|x l]; [discriminate|]. simpl. intros [= <-].
  assert (G : forall (l : list ((nat * seg F) * F)) x, In (fold_left (fun a b => if fgt (snd a) (snd b) then a else b) l x) (x :: l)).
  { clear. induction l as [|y l IH]; intros x; simpl; auto. destruct (fgt _ _); specialize (IH x) as IH1; specialize (IH y) as IH2;
    simpl in *; intuition. }
  specialize (G l x). destruct (fold_left _ l x) as [q t]. exists t. exact G.
Qed.
Lemma reduce_none l : reduce_max (F:=F) l = None <-> l = [].
Proof. destruct l; simpl; split; congruence. Qed.
Lemma next_cand h segs cur used j g : find_next_segment h segs cur used = Some (j, g) -> cand h segs used cur j g.
Proof. unfold find_next_segment. intros H. apply reduce_in in H as [t H]. apply in_matches in H. tauto. Qed.
Lemma next_none h segs cur used : find_next_segment h segs cur used = None <-> forall j g, ~ cand h segs used cur j g.
Proof.
  unfold find_next_segment. rewrite reduce_none. split.
  - intros E j g C. assert (H : In ((j, g), turn h cur g) (next_matches h segs cur used)) by (apply in_matches; auto).
    rewrite E in H. destruct H.
  - intros H. destruct (next_matches h segs cur used) as [|[[j g] t] l] eqn:E; auto. exfalso. apply (H j g).
    apply (in_matches h segs used cur j g t). rewrite E. now left.
Qed.

(** ** Closed walks *)
(** a walk that ends when a segment ends at [p0] *)
Inductive cwalk (h : heap F) (segs : list (seg F)) (used : list nat) (p0 : F * F) : nat * seg F -> list (nat * seg F) -> Prop :=
| cwalk_end c : v2eq (get_end h (snd c)) p0 = true -> cwalk h segs used p0 c [c]
| cwalk_step c d w : v2eq (get_end h (snd c)) p0 = false -> find_next_segment h segs (snd c) used = Some d ->
    cwalk h segs used p0 d w -> cwalk h segs used p0 c (c :: w).
Lemma walk_spec h segs used p0 : forall n acc c r, walk h segs used p0 n acc c = Some r <->
  exists w, r = acc ++ w /\ cwalk h segs used p0 c w /\ length w <= n.
Proof.
  induction n as [|n IH]; intros acc c r; simpl.
  - split; [discriminate|]. intros (w & _ & W & L). inversion W; subst; simpl in L; lia.
  - destruct (v2eq (get_end h (snd c)) p0) eqn:E.
    + split.
      * intros [= <-]. exists [c]. split; auto. split; [now constructor | simpl; lia].
      * intros (w & -> & W & _). inversion W; subst; auto. congruence.
    + destruct (find_next_segment h segs (snd c) used) as [d|] eqn:En.
      * rewrite IH. split.
        -- intros (w & -> & W & L). exists (c :: w). rewrite <- app_assoc. split; auto. split; [econstructor; eauto | simpl; lia].
        -- intros (w & -> & W & L). inversion W; subst; [congruence|]. rewrite En in H0. injection H0 as <-.
           exists w0. rewrite <- app_assoc. split; auto. split; auto. simpl in L. lia.
      * split; [discriminate|]. intros (w & _ & W & _). inversion W; subst; congruence.
Qed.
Lemma cwalk_fun h segs used p0 c w : cwalk h segs used p0 c w -> forall w', cwalk h segs used p0 c w' -> w = w'.
Proof.
  induction 1 as [c E|c d w E En W IH]; intros w' W'; inversion W'; subst; auto; try congruence.
  rewrite En in H0. injection H0 as <-. f_equal. auto.
Qed.
Definition consistent (segs : list (seg F)) (c : nat * seg F) := nth_error segs (fst c) = Some (snd c).
Lemma cwalk_consistent h segs used p0 c w : consistent segs c -> cwalk h segs used p0 c w -> Forall (consistent segs) w.
Proof.
  intros C W. induction W as [c E|c d w E En W IH]; constructor; auto. apply IH. destruct d as [j g].
  apply next_cand in En as (H & _). exact H.
Qed.
Lemma cwalk_unused h segs used p0 c w : ~ In (fst c) used -> cwalk h segs used p0 c w -> Forall (fun x => ~ In (fst x) used) w.
Proof.
  intros C W. induction W as [c E|c d w E En W IH]; constructor; auto. apply IH. destruct d as [j g].
  apply next_cand in En as (_ & H & _). exact H.
Qed.
Lemma cwalk_suffix h segs used p0 c w : cwalk h segs used p0 c w -> forall u d v, w = u ++ d :: v -> cwalk h segs used p0 d (d :: v).
Proof.
  induction 1 as [c E|c d w E En W IH]; intros u e v Hw.
  - destruct u as [|a u]; simpl in Hw; [injection Hw as <- <-; now constructor|]. injection Hw as _ Hw. destruct u; discriminate.
  - destruct u as [|a u]; simpl in Hw.
    + injection Hw as <- <-. econstructor; eauto.
    + injection Hw as <- Hw. eapply IH; eauto.
Qed.
Lemma cwalk_nodup h segs used p0 c w : consistent segs c -> cwalk h segs used p0 c w -> NoDup (map fst w).
Proof.
  intros C W. assert (K := cwalk_consistent _ _ _ _ _ _ C W).
  destruct (ListDec.NoDup_dec Nat.eq_dec (map fst w)) as [N|N]; auto. exfalso.
  assert (G : forall l : list (nat * seg F), ~ NoDup (map fst l) -> exists u x v y t, l = u ++ x :: v ++ y :: t /\ fst x = fst y).
  { clear. induction l as [|a l IH]; intros H; [destruct H; constructor|]. simpl in H.
    destruct (in_dec Nat.eq_dec (fst a) (map fst l)) as [Hi|Hn].
    - apply in_map_iff in Hi as (y & Ey & Hy). apply in_split in Hy as (v & t & ->). exists [], a, v, y, t. auto.
    - destruct IH as (u & x & v & y & t & -> & E); [intros Hd; apply H; now constructor|]. exists (a :: u), x, v, y, t. auto. }
  destruct (G w N) as (u & x & v & y & t & -> & E).
  assert (Exy : x = y).
  { rewrite Forall_forall in K. assert (Kx := K x). assert (Ky := K y). unfold consistent in *.
    specialize (Kx ltac:(apply in_or_app; simpl; auto)). specialize (Ky ltac:(apply in_or_app; right; right; apply in_or_app; simpl; auto)).
    destruct x as [i a], y as [j b]; simpl in *. subst j. congruence. }
  subst y. assert (W1 := cwalk_suffix _ _ _ _ _ _ W u x (v ++ x :: t) eq_refl).
  assert (W2 := cwalk_suffix _ _ _ _ _ _ W (u ++ x :: v) x t ltac:(rewrite <- app_assoc; reflexivity)).
  pose proof (cwalk_fun _ _ _ _ _ _ W1 _ W2) as X. injection X as X. assert (L := f_equal (@length _) X). rewrite app_length in L. simpl in L. lia.
Qed.
Lemma cwalk_chain h segs used p0 c w : cwalk h segs used p0 c w ->
  chain h (map snd w) /\ v2eq (get_end h (last (map snd w) (snd c))) p0 = true /\ exists t, w = c :: t.
Proof.
  induction 1 as [c E|c d w E En W IH].
  - simpl. eauto.
  - destruct IH as (C & L & t & ->). split; [|split; eauto].
    + simpl. split; [|exact C]. destruct d as [j g]. apply next_cand in En as (_ & _ & H & _). exact H.
    + simpl map. simpl map in L. change (last (snd c :: snd d :: map snd t) (snd c)) with (last (snd d :: map snd t) (snd c)).
      replace (last (snd d :: map snd t) (snd c)) with (last (snd d :: map snd t) (snd d)); auto.
      clear. generalize (snd d) at 1 3. induction (map snd t) as [|x l IH]; intros y; auto. change (last (x :: l) (snd d) = last (x :: l) (snd c)). apply IH.
Qed.

(** ** The main loop *)
(** [done]: the indices already visited; the walks found from them, in order *)
Inductive greedy (h : heap F) (segs : list (seg F)) : list nat -> list (list (nat * seg F)) -> Prop :=
| greedy_nil : greedy h segs [] []
| greedy_used done ws i : greedy h segs done ws -> In i (map fst (concat ws)) -> greedy h segs (done ++ [i]) ws
| greedy_dead done ws i g : greedy h segs done ws -> ~ In i (map fst (concat ws)) -> nth_error segs i = Some g ->
    (forall w, cwalk h segs (map fst (concat ws)) (get_start h g) (i, g) w -> length segs <= length w) ->
    greedy h segs (done ++ [i]) ws
| greedy_ring done ws i g w : greedy h segs done ws -> ~ In i (map fst (concat ws)) -> nth_error segs i = Some g ->
    cwalk h segs (map fst (concat ws)) (get_start h g) (i, g) w -> length w < length segs ->
    greedy h segs (done ++ [i]) (ws ++ [w]).
Lemma ring_loop_greedy h segs : exists ws, ring_loop h segs = (map fst (concat ws), ws) /\ greedy h segs (seq 0 (length segs)) ws.
Proof.
  unfold ring_loop.
  assert (G : forall l b done ws, (forall i g, In (i, g) (combine (seq b (length l)) l) -> nth_error segs i = Some g) ->
    greedy h segs done ws ->
    exists ws', fold_left (ring_step h segs) (combine (seq b (length l)) l) (map fst (concat ws), ws) = (map fst (concat ws'), ws') /\
      greedy h segs (done ++ seq b (length l)) ws').
  { induction l as [|g l IH]; intros b done ws Hc Gr; simpl.
    - exists ws. rewrite app_nil_r. auto.
    - assert (Hb : nth_error segs b = Some g) by (apply Hc; now left).
      assert (Hc' : forall i g0, In (i, g0) (combine (seq (S b) (length l)) l) -> nth_error segs i = Some g0) by (intros; apply Hc; now right).
      replace (done ++ b :: seq (S b) (length l)) with ((done ++ [b]) ++ seq (S b) (length l)) by (rewrite <- app_assoc; reflexivity).
      destruct (existsb (Nat.eqb b) (map fst (concat ws))) eqn:Eu.
      { apply IH; auto. apply greedy_used; auto. now apply existsb_In. }
      apply existsb_nIn in Eu.
      destruct (walk h segs (map fst (concat ws)) (get_start h g) (length segs - 1) [] (b, g)) as [r|] eqn:Ew.
      + apply walk_spec in Ew as (w & -> & W & L). simpl.
        assert (Ln : length w < length segs).
        { assert (length segs <> 0) by (destruct segs; [destruct b; discriminate | simpl; lia]). lia. }
        assert (E : map fst (concat ws) ++ map fst w = map fst (concat (ws ++ [w]))) by (rewrite concat_app, map_app; simpl; now rewrite app_nil_r).
        rewrite E. apply IH; auto. eapply greedy_ring; eauto.
      + apply IH; auto. eapply greedy_dead; eauto. intros w W. destruct (le_lt_dec (length segs) (length w)) as [|Hl]; auto.
        assert (X : walk h segs (map fst (concat ws)) (get_start h g) (length segs - 1) [] (b, g) = Some w); [|congruence].
        apply walk_spec. exists w. split; auto. split; auto. lia. }
  destruct (G segs 0 [] []) as (ws & E & Gr).
  - intros i g. apply in_enum0.
  - constructor.
  - exists ws. auto.
Qed.

Lemma greedy_walk h segs done ws : greedy h segs done ws -> forall w, In w ws ->
  exists used i g, nth_error segs i = Some g /\ cwalk h segs used (get_start h g) (i, g) w.
Proof.
  induction 1 as [|done ws i Gr IH Hi|done ws i g Gr IH Hu Hn Hd|done ws i g w Gr IH Hu Hn W L]; intros w0 Hw0.
  - destruct Hw0.
  - auto.
  - auto.
  - apply in_app_or in Hw0 as [Hw0|[<-|[]]]; auto. eauto.
Qed.
Lemma NoDup_app2 {T} (l l' : list T) : NoDup l -> NoDup l' -> (forall x, In x l' -> ~ In x l) -> NoDup (l ++ l').
Proof.
  induction l as [|x l IH]; simpl; intros H1 H2 Hd; auto. inversion H1; subst. constructor.
  - intros H. apply in_app_or in H as [H|H]; auto. apply (Hd x H). now left.
  - apply IH; auto. intros y Hy Hl. apply (Hd y Hy). now right.
Qed.
Lemma greedy_nodup h segs done ws : greedy h segs done ws -> NoDup (map fst (concat ws)) /\ Forall (consistent segs) (concat ws).
Proof.
  induction 1 as [|done ws i Gr IH Hi|done ws i g Gr IH Hu Hn Hd|done ws i g w Gr IH Hu Hn W L]; auto.
  - simpl. split; constructor.
  - destruct IH as [N C]. rewrite concat_app, map_app. simpl. rewrite app_nil_r. split.
    + apply NoDup_app2; auto.
      * eapply cwalk_nodup; eauto. exact Hn.
      * assert (U := cwalk_unused _ _ _ _ (i, g) _ Hu W). rewrite Forall_forall in U. intros x Hx. apply in_map_iff in Hx as (y & <- & Hy). now apply U.
    + apply Forall_app. split; auto. eapply cwalk_consistent; eauto. exact Hn.
Qed.

(** ** Sorting and filtering *)
Lemma insert_perm h r l : Permutation (insert_ring h r l) (r :: l).
Proof.
  induction l as [|x l IH]; simpl; auto. destruct (ftle _ _); auto.
  eapply perm_trans; [apply perm_skip; exact IH | apply perm_swap].
Qed.
Lemma sort_perm h l : Permutation (sort_rings h l) l.
Proof. induction l as [|x l IH]; simpl; auto. eapply perm_trans; [apply insert_perm | now apply perm_skip]. Qed.
Lemma filter_perm {T} (f : T -> bool) l l' : Permutation l l' -> Permutation (filter f l) (filter f l').
Proof.
  induction 1 as [|x l l' P IH|x y l|l l' l'' P1 IH1 P2 IH2]; simpl; auto.
  - destruct (f x); auto.
  - destruct (f x), (f y); auto. apply perm_swap.
  - now apply perm_trans with (filter f l').
Qed.
Lemma filter_sorted {T} (R : T -> T -> Prop) f l : StronglySorted R l -> StronglySorted R (filter f l).
Proof.
  induction 1 as [|x l S IH H]; simpl; [constructor|]. destruct (f x); auto. constructor; auto.
  rewrite Forall_forall in *. intros y Hy. apply H. apply filter_In in Hy. tauto.
Qed.

Lemma find_rings_spec h s : exists ws, greedy h (directed h s) (seq 0 (length (directed h s))) ws /\
  fst (find_rings h s) = filter (fun r => fgt (signed_area h r) f0)
    (sort_rings h (map (fun w => RSegments (map snd w)) ws ++ map RCircle (circles h s))) /\
  snd (find_rings h s) = unused_segments (map fst (concat ws)) (forward h s).
Proof.
  unfold find_rings. rewrite all_directed, init_forward, circle_rings_spec.
  destruct (ring_loop_greedy h (directed h s)) as (ws & -> & G). exists ws. auto.
Qed.
Lemma in_rings h s r : In r (fst (find_rings h s)) -> fgt (signed_area h r) f0 = true /\
  ((exists w used i g, r = RSegments (map snd w) /\ nth_error (directed h s) i = Some g /\
      cwalk h (directed h s) used (get_start h g) (i, g) w) \/
   (exists c, In c (circles h s) /\ r = RCircle c)).
Proof.
  destruct (find_rings_spec h s) as (ws & G & -> & _). rewrite filter_In. intros [Hr Hp]. split; auto.
  apply (Permutation_in _ (sort_perm h _)) in Hr. apply in_app_or in Hr as [Hr|Hr]; apply in_map_iff in Hr as (x & <- & Hx).
  - left. destruct (greedy_walk _ _ _ _ G x Hx) as (used & i & g & Hn & W). eauto 8.
  - right. eauto.
Qed.

Lemma in_forward h s g : In g (forward h s) <-> exists c id, In (id, c) (s_prims s) /\ seg_of h c = Some g.
Proof.
  unfold forward. rewrite in_flat_map. split.
  - intros [[id c] [H E]]. simpl in E. exists c, id. split; auto. destruct (seg_of h c); [|destruct E]. destruct E as [->|[]]. reflexivity.
  - intros (c & id & H & E). exists (id, c). split; auto. simpl. rewrite E. now left.
Qed.

(** C35 *)
Lemma C35_lemma h s r : In r (fst (find_rings h s)) ->
  match r with
  | RCircle c => exists l id, In (id, PCircle l) (s_prims s) /\ c = getC h l
  | RSegments l => closed_chain h l /\
      forall g, In g l -> exists c id g', In (id, c) (s_prims s) /\ seg_of h c = Some g' /\ (g = g' \/ g = seg_reverse g')
  end.
Proof.
  intros H. apply in_rings in H as [_ [(w & used & i & g & -> & Hn & W)|(c & Hc & ->)]].
  - assert (C := cwalk_consistent _ _ _ _ (i, g) _ (Hn : consistent (directed h s) (i, g)) W). apply cwalk_chain in W as (Ch & Hl & t & ->). split.
    + exists g, (map snd t). split; auto.
    + intros g0 Hg0. apply in_map_iff in Hg0 as ([j x] & <- & Hx). rewrite Forall_forall in C. specialize (C _ Hx).
      apply nth_error_In in C. simpl in *. unfold directed in C. apply in_app_or in C as [C|C].
      * apply in_forward in C as (c & id & Hi & E). exists c, id, x. auto.
      * apply in_map_iff in C as (y & <- & Hy). apply in_forward in Hy as (c & id & Hi & E). exists c, id, y. auto.
  - unfold circles in Hc. apply in_flat_map in Hc as ([id k] & Hk & E). destruct k; simpl in E; try contradiction. destruct E as [<-|[]]. eauto.
Qed.

(** C36 *)
Lemma nodup_perm {T} (l : list T) (is : list (nat * T)) : NoDup (map fst is) -> Forall (fun p => nth_error l (fst p) = Some (snd p)) is ->
  exists rest, Permutation (map snd is ++ rest) l.
Proof.
  intros N C. destruct l as [|d l'].
  { destruct is as [|[i x] is]; [exists []; constructor|]. inversion C; subst. destruct i; discriminate. }
  set (l := d :: l') in *.
  set (rest := filter (fun i => negb (existsb (Nat.eqb i) (map fst is))) (seq 0 (length l))).
  exists (map (fun i => nth i l d) rest).
  assert (E1 : map snd is = map (fun i => nth i l d) (map fst is)).
  { rewrite map_map. apply map_ext_in. intros p Hp. rewrite Forall_forall in C. symmetry. now apply nth_error_nth, C. }
  assert (E2 : l = map (fun i => nth i l d) (seq 0 (length l))).
  { clear. apply nth_ext with (d := d) (d' := nth 0 l d); [now rewrite map_length, seq_length|]. intros n Hn.
    rewrite (map_nth (fun i => nth i l d)). now rewrite seq_nth. }
  rewrite E1, <- map_app. enough (X : Permutation (map fst is ++ rest) (seq 0 (length l))) by (apply (Permutation_map (fun i => nth i l d)) in X; now rewrite <- E2 in X). apply NoDup_Permutation.
  - apply NoDup_app2; auto.
    + apply NoDup_filter, seq_NoDup.
    + unfold rest. intros x Hx. apply filter_In in Hx as [_ Hx]. apply negb_true_iff in Hx. now apply existsb_nIn.
  - apply seq_NoDup.
  - intros i. rewrite in_app_iff. unfold rest. rewrite filter_In, in_seq, negb_true_iff, existsb_nIn. split.
    + intros [H|H]; [|tauto]. apply in_map_iff in H as (p & <- & Hp). rewrite Forall_forall in C. specialize (C _ Hp).
      assert (fst p < length l) by (apply nth_error_Some; congruence). lia.
    + intros H. destruct (in_dec Nat.eq_dec i (map fst is)); auto.
Qed.
Lemma segs_of_rings ws (cs : list (circle F)) :
  flat_map ring_segs (map (fun w : list (nat * seg F) => RSegments (map snd w)) ws ++ map RCircle cs) = map snd (concat ws).
Proof.
  rewrite flat_map_app, !flat_map_concat_map, !map_map, concat_map. simpl.
  replace (concat (map (fun _ : circle F => []) cs)) with (@nil (seg F)) by (induction cs; auto). apply app_nil_r.
Qed.
Lemma perm_flat_map {T U} (f : T -> list U) l l' : Permutation l l' -> Permutation (flat_map f l) (flat_map f l').
Proof.
  induction 1 as [|x l l' P IH|x y l|l l' l'' P1 IH1 P2 IH2]; simpl; auto.
  - now apply Permutation_app_head.
  - rewrite !app_assoc. apply Permutation_app_tail, Permutation_app_comm.
  - now apply perm_trans with (flat_map f l').
Qed.
Lemma filter_split {T} (f : T -> bool) l : Permutation l (filter f l ++ filter (fun x => negb (f x)) l).
Proof.
  induction l as [|x l IH]; simpl; auto. destruct (f x); simpl.
  - now constructor.
  - apply Permutation_cons_app. exact IH.
Qed.
Lemma C36_lemma h s : exists rest, Permutation (flat_map ring_segs (fst (find_rings h s)) ++ rest) (directed h s).
Proof.
  destruct (find_rings_spec h s) as (ws & G & -> & _). destruct (greedy_nodup _ _ _ _ G) as [N C].
  destruct (nodup_perm _ _ N C) as (rest & P).
  set (all := map (fun w : list (nat * seg F) => RSegments (map snd w)) ws ++ map RCircle (circles h s)).
  assert (E : map snd (concat ws) = flat_map ring_segs all) by (symmetry; apply segs_of_rings).
  set (f := fun r => fgt (signed_area h r) f0). exists (flat_map ring_segs (filter (fun r => negb (f r)) (sort_rings h all)) ++ rest).
  rewrite app_assoc. eapply perm_trans; [|exact P]. apply Permutation_app_tail. rewrite E, <- flat_map_app.
  apply perm_flat_map. eapply perm_trans; [|apply sort_perm]. apply Permutation_sym, filter_split.
Qed.
End DL.
