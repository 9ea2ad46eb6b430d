(** * Faces, holes and merging, for any arithmetic and any geometric predicates *)
From Coq Require Import List ZArith NArith Arith Bool Lia Permutation Sorted.
From Verif Require Import Arith Vec Prim Cons Sketch Decomp Spec DecompSpec DecompLemmas.
Import ListNotations.

Section FL.
Context {F : Type} {A : Arith F}.
Variable contains_poly : poly F -> poly F -> bool.
Variable contains_point : poly F -> F * F -> bool.
Variable interior_point : poly F -> option (F * F).

Lemma lset_nth {T} (l : list T) : forall i x j, nth_error (lset l i x) j = if Nat.eqb i j then match nth_error l j with Some _ => Some x | None => None end else nth_error l j.
Proof. induction l as [|y l IH]; intros [|i] x [|j]; simpl; auto; try (destruct (Nat.eqb i j); auto; fail); apply IH. Qed.
Lemma lset_map_same {T U} (f : T -> U) (l : list T) : forall i x y, nth_error l i = Some y -> f x = f y -> map f (lset l i x) = map f l.
Proof.
  induction l as [|z l IH]; intros [|i] x y H E; simpl in *; try discriminate; auto.
  - injection H as ->. now rewrite E.
  - f_equal. eapply IH; eauto.
Qed.

Lemma flat_map_ext_in {T U} (f g : T -> list U) l : (forall x, In x l -> f x = g x) -> flat_map f l = flat_map g l.
Proof. induction l as [|x l IH]; simpl; intros H; auto. rewrite H, IH; auto. Qed.
Lemma nth_error_firstn_lt {T} (l : list T) : forall n k, k < n -> nth_error (firstn n l) k = nth_error l k.
Proof. induction l as [|x l IH]; intros [|n] [|k] H; simpl; auto; try lia. apply IH. lia. Qed.
Lemma filter_all_true {T} (P : T -> bool) l : (forall x, In x l -> P x = true) -> filter P l = l.
Proof. induction l as [|x l IH]; simpl; intros H; auto. rewrite H, IH; auto. Qed.
Lemma attach_ok w : forall faces : list (face F), Forall (fun p => fst p < length faces /\ snd p < length faces) w ->
  exists fs, attach_holes faces w = Val fs /\ map face_ext fs = map face_ext faces.
Proof.
  induction w as [|[b sm] w IH]; intros faces H; simpl; [eauto|]. inversion H as [|? ? [Hb Hs] Hw]; subst. simpl in *.
  destruct (nth_error faces sm) as [hole|] eqn:Es; [|apply nth_error_None in Es; lia].
  destruct (nth_error faces b) as [f|] eqn:Eb; [|apply nth_error_None in Eb; lia].
  destruct (IH (lset faces b (add_hole f hole))) as (fs & E & M).
  - assert (L : length (lset faces b (add_hole f hole)) = length faces).
    { rewrite <- (map_length face_ext), (lset_map_same _ _ _ _ f), map_length; auto. }
    now rewrite L.
  - exists fs. split; auto. rewrite M. eapply lset_map_same; eauto.
Qed.
Lemma first_container_bound sm rest : forall j k, first_container contains_poly sm rest j = Some k ->
  j <= k /\ exists b, nth_error rest (k - j) = Some b /\ contains_poly b sm = true /\
    forall m c, m < k - j -> nth_error rest m = Some c -> contains_poly c sm = false.
Proof.
  induction rest as [|b rest IH]; intros j k H; simpl in H; [discriminate|]. destruct (contains_poly b sm) eqn:E.
  - injection H as <-. split; auto. exists b. rewrite Nat.sub_diag. split; auto. split; auto. intros m c Hm. lia.
  - apply IH in H as (Hl & c & Hn & Hc & Hm). split; [lia|]. exists c. replace (k - j) with (S (k - S j)) by lia. split; auto. split; auto.
    intros [|m] d Hlt Hd; simpl in Hd; [congruence|]. apply (Hm m d); auto. lia.
Qed.
Lemma first_container_none sm rest : forall j, first_container contains_poly sm rest j = None <-> forall b, In b rest -> contains_poly b sm = false.
Proof.
  clear contains_point interior_point.
  induction rest as [|b rest IH]; intros j; simpl; [intuition|]. destruct (contains_poly b sm) eqn:E.
  - split; [discriminate|]. intros H. rewrite H in E; auto. discriminate.
  - rewrite IH. split; intros H; [intros c [<-|Hc]; auto | auto].
Qed.
Lemma nth_skipn {T} (l : list T) : forall n i, nth_error (skipn n l) i = nth_error l (n + i).
Proof. induction l as [|x l IH]; intros [|n] i; simpl; auto. destruct i; auto. Qed.
Lemma enum_firstn {T} (l : list T) n i x : In (i, x) (combine (seq 0 n) (firstn n l)) <-> i < n /\ nth_error l i = Some x.
Proof.
  assert (G : forall n b (l : list T) i x, In (i, x) (combine (seq b n) (firstn n l)) <-> b <= i < b + n /\ nth_error l (i - b) = Some x).
  { clear. induction n as [|n IH]; intros b l i x; simpl; [split; [tauto | lia]|]. destruct l as [|y l]; simpl.
    - split; [tauto|]. intros [_ H]. destruct (i - b); discriminate.
    - rewrite IH. split.
      + intros [[= <- <-]|[H1 H2]]; [rewrite Nat.sub_diag; split; auto; lia|]. split; [lia|]. replace (i - b) with (S (i - S b)) by lia. exact H2.
      + intros [H1 H2]. destruct (Nat.eq_dec i b) as [->|N].
        * rewrite Nat.sub_diag in H2. injection H2 as ->. now left.
        * right. split; [lia|]. replace (i - b) with (S (i - S b)) in H2 by lia. exact H2. }
  rewrite G, Nat.sub_0_r. intuition lia.
Qed.
Lemma wcw_bounds polys : Forall (fun p => fst p < length polys /\ snd p < length polys) (what_contains_what contains_poly polys).
Proof.
  apply Forall_forall. intros [b i] H. unfold what_contains_what in H. apply in_flat_map in H as ([k q] & Hk & E).
  apply enum_firstn in Hk as [Hk Hq]. simpl in E. destruct (first_container contains_poly q (skipn (k + 1) polys) 0) as [j|] eqn:Ef; [|destruct E].
  destruct E as [E|[]]. injection E as <- <-. apply first_container_bound in Ef as (_ & c & Hn & _). rewrite nth_skipn, Nat.sub_0_r in Hn.
  assert (k + 1 + j < length polys) by (apply nth_error_Some; congruence). simpl. lia.
Qed.
Lemma C39_lemma h s : exists fs, get_faces contains_poly h s = Val fs /\ map face_ext fs = fst (find_rings h s).
Proof.
  unfold get_faces, find_faces. destruct (find_rings h s) as [rings unused] eqn:E. cbn [fst].
  destruct rings as [|r rings'] eqn:Er; [exists []; auto|]. rewrite <- Er.
  destruct (attach_ok (what_contains_what contains_poly (map (ring_polygon h) rings)) (map face_from_ring rings)) as (fs & Ef & M).
  - rewrite map_length. rewrite <- (map_length (ring_polygon h)). apply wcw_bounds.
  - rewrite Ef. exists fs. split; auto. rewrite M, map_map. apply map_id.
Qed.
Lemma find_faces_parts h s fs u : find_faces contains_poly h s = Val (fs, u) -> get_faces contains_poly h s = Val fs /\ u = snd (find_rings h s).
Proof.
  unfold get_faces. intros H. rewrite H. split; auto. unfold find_faces in H. destruct (find_rings h s) as [rings unused].
  destruct rings; [now injection H|]. destruct (attach_holes _ _); [now injection H|discriminate].
Qed.
Lemma C39_unused_lemma h s : exists fs, find_faces contains_poly h s = Val (fs, snd (find_rings h s)) /\ get_faces contains_poly h s = Val fs.
Proof.
  destruct (C39_lemma h s) as (fs & E & _). exists fs. split; auto. unfold get_faces in E.
  destruct (find_faces contains_poly h s) as [[fs' u]|] eqn:Ef; [|discriminate]. apply find_faces_parts in Ef as [Eg ->]. injection E as ->. reflexivity.
Qed.

(** C40: which holes each face gets *)
(** the smallest later ring whose polygon contains that of ring [i]: its distance from [i+1] *)
Lemma attach_holes_of w : forall (faces fs : list (face F)), attach_holes faces w = Val fs ->
  forall b f, nth_error faces b = Some f -> exists f', nth_error fs b = Some f' /\
    map face_ext (face_holes f') = map face_ext (face_holes f) ++
      flat_map (fun p => if Nat.eqb (fst p) b then match nth_error faces (snd p) with Some g => [face_ext g] | None => [] end else []) w.
Proof.
  induction w as [|[c sm] w IH]; intros faces fs H b f Hb; simpl in *.
  - injection H as <-. exists f. split; auto. now rewrite app_nil_r.
  - destruct (nth_error faces sm) as [hole|] eqn:Es; [|discriminate]. destruct (nth_error faces c) as [g|] eqn:Ec; [|discriminate].
    assert (X : forall k, match nth_error (lset faces c (add_hole g hole)) k with Some x => [face_ext x] | None => [] end =
                match nth_error faces k with Some x => [face_ext x] | None => [] end).
    { intros k. rewrite lset_nth. destruct (Nat.eqb_spec c k) as [->|]; auto. rewrite Ec. reflexivity. }
    destruct (IH _ _ H b (if Nat.eqb c b then add_hole g hole else f)) as (f' & Hf & M).
    + rewrite lset_nth. destruct (Nat.eqb_spec c b) as [->|]; auto. now rewrite Hb.
    + exists f'. split; auto. rewrite M. rewrite (flat_map_ext _ (fun p => if Nat.eqb (fst p) b then match nth_error faces (snd p) with Some g => [face_ext g] | None => [] end else [])).
      2:{ intros [x y]. simpl. destruct (Nat.eqb x b); auto. }
      destruct (Nat.eqb_spec c b) as [->|N]; auto.
      rewrite Ec in Hb. injection Hb as <-. unfold add_hole. simpl. rewrite map_app, <- app_assoc. reflexivity.
Qed.
Lemma C40_lemma h s fs : get_faces contains_poly h s = Val fs ->
  let rings := fst (find_rings h s) in
  forall b f, nth_error fs b = Some f -> forall r, In r (map face_ext (face_holes f)) <->
    exists i c, nth_error rings i = Some r /\ nth_error rings (i + 1 + b) = Some c /\
      contains_poly (ring_polygon h c) (ring_polygon h r) = true /\
      forall m d, i < m < i + 1 + b -> nth_error rings m = Some d -> contains_poly (ring_polygon h d) (ring_polygon h r) = false.
Proof.
  clear contains_point interior_point.
  intros H rings b f Hb r. unfold get_faces, find_faces in H. unfold rings. destruct (find_rings h s) as [rs unused]. cbn [fst].
  clear rings. destruct rs as [|r0 rs'] eqn:Er.
  { injection H as <-. destruct b; discriminate. }
  rewrite <- Er in *. clear r0 rs' Er.
  destruct (attach_holes _ _) as [fs'|] eqn:E; [|discriminate]. injection H as ->.
  assert (Lf : length fs = length rs).
  { destruct (attach_ok (what_contains_what contains_poly (map (ring_polygon h) rs)) (map face_from_ring rs)) as (fs' & Ef & M).
    - rewrite map_length. rewrite <- (map_length (ring_polygon h)). apply wcw_bounds.
    - rewrite Ef in E. injection E as ->. apply (f_equal (@length _)) in M. now rewrite !map_length in M. }
  assert (Hlb : b < length rs) by (rewrite <- Lf; apply nth_error_Some; congruence).
  destruct (nth_error rs b) as [rb|] eqn:Erb; [|apply nth_error_None in Erb; lia].
  destruct (attach_holes_of _ _ _ E b (face_from_ring rb)) as (f' & Hf & M); [now apply map_nth_error|].
  rewrite Hb in Hf. injection Hf as <-. rewrite M. simpl. rewrite in_flat_map. split.
  - intros ([c i] & Hp & Hr). simpl in Hr. destruct (Nat.eqb_spec c b) as [->|]; [|destruct Hr].
    unfold what_contains_what in Hp. apply in_flat_map in Hp as ([k q] & Hk & Ek). apply enum_firstn in Hk as [Hk Hq]. simpl in Ek.
    destruct (first_container contains_poly q (skipn (k + 1) (map (ring_polygon h) rs)) 0) as [j|] eqn:Ej; [|destruct Ek].
    destruct Ek as [Ek|[]]. injection Ek as <- <-. apply first_container_bound in Ej as (_ & p & Hn & Hc & Hm). rewrite Nat.sub_0_r in *. rewrite nth_skipn in Hn.
    rewrite nth_error_map in Hr, Hq, Hn. destruct (nth_error rs k) as [rk|] eqn:Ek; [|discriminate]. simpl in *.
    destruct Hr as [<-|[]]. injection Hq as <-. destruct (nth_error rs (k + 1 + j)) as [c|] eqn:Ec; [|discriminate]. injection Hn as <-.
    exists k, c. split; auto. split; auto. split; auto. intros m d Hlt Hd. apply (Hm (m - (k + 1))); [lia|].
    rewrite nth_skipn. replace (k + 1 + (m - (k + 1))) with m by lia. rewrite nth_error_map, Hd. reflexivity.
  - intros (i & c & Hi & Hc & Hcon & Hm). exists (b, i). simpl. rewrite Nat.eqb_refl. split.
    + unfold what_contains_what. apply in_flat_map. exists (i, ring_polygon h r). split.
      * apply enum_firstn. split; [|rewrite nth_error_map, Hi; reflexivity].
        assert (i + 1 + b < length rs) by (apply nth_error_Some; congruence). rewrite map_length. lia.
      * simpl. assert (X : first_container contains_poly (ring_polygon h r) (skipn (i + 1) (map (ring_polygon h) rs)) 0 = Some b); [|rewrite X; now left].
        destruct (first_container contains_poly (ring_polygon h r) (skipn (i + 1) (map (ring_polygon h) rs)) 0) as [j|] eqn:Ej.
        -- apply first_container_bound in Ej as (_ & p & Hn & Hp & Hmin). rewrite Nat.sub_0_r in *. f_equal.
           rewrite nth_skipn, nth_error_map in Hn. destruct (nth_error rs (i + 1 + j)) as [d|] eqn:Ed; [|discriminate]. injection Hn as <-.
           destruct (lt_eq_lt_dec j b) as [[Hl| ->]|Hl]; auto; exfalso.
           ++ rewrite (Hm (i + 1 + j) d) in Hp; auto; [discriminate | lia].
           ++ rewrite (Hmin b (ring_polygon h c)) in Hcon; auto; [discriminate|]. rewrite nth_skipn, nth_error_map, Hc. reflexivity.
        -- exfalso. rewrite first_container_none in Ej. rewrite Ej in Hcon; [discriminate|].
           apply nth_error_In with (n := b). rewrite nth_skipn, nth_error_map, Hc. reflexivity.
    + rewrite nth_error_map, Hi. simpl. auto.
Qed.

(** ** merge_faces *)
Lemma vec_remove_ok {T} (l : list T) : forall i, i < length l -> vec_remove l i = Val (firstn i l ++ skipn (S i) l).
Proof.
  induction l as [|x l IH]; intros [|i] H; simpl in *; try lia; auto. rewrite IH by lia. reflexivity.
Qed.
Definition located (h : heap F) (fs : list (face F)) (f : face F) : bool :=
  match interior_point (face_polygon h f) with Some p => existsb (fun o => contains_point o p) (map (face_polygon h) fs) | None => true end.
Lemma to_remove_val h olds : forall fs i, (forall f, In f fs -> interior_point (face_polygon h f) <> None) ->
  faces_to_remove contains_point interior_point h olds i fs = Val (map (fun k => i + k) (filter (fun k => match nth_error fs k with
     Some f => match interior_point (face_polygon h f) with Some p => negb (existsb (fun o => contains_point o p) olds) | None => false end | None => false end) (seq 0 (length fs)))).
Proof.
  induction fs as [|f fs IH]; intros i H; simpl; auto.
  destruct (interior_point (face_polygon h f)) as [p|] eqn:Ep; [|exfalso; apply (H f); [now left | exact Ep]].
  rewrite IH by (intros g Hg; apply H; now right). f_equal.
  assert (X : forall P, map (fun k => S i + k) (filter (fun k => P (S k)) (seq 0 (length fs))) = map (fun k => i + k) (filter P (seq 1 (length fs)))).
  { clear. intros P. rewrite <- seq_shift. induction (seq 0 (length fs)) as [|k l IH]; cbn [map filter]; auto.
    destruct (P (S k)); cbn [map filter]; rewrite IH; auto. f_equal. lia. }
  destruct (existsb (fun o => contains_point o p) olds); simpl.
  - rewrite <- X. reflexivity.
  - rewrite <- X, Nat.add_0_r. reflexivity.
Qed.
Lemma to_remove_panic h olds : forall fs i, (exists f, In f fs /\ interior_point (face_polygon h f) = None) ->
  faces_to_remove contains_point interior_point h olds i fs = Panic.
Proof.
  induction fs as [|f fs IH]; intros i (g & Hg & E); [destruct Hg|]. simpl. destruct Hg as [->|Hg]; [now rewrite E|].
  destruct (interior_point (face_polygon h f)); auto. rewrite IH; eauto.
Qed.
Lemma remove_desc (P : nat -> bool) : forall n (l : list (face F)), n <= length l ->
  remove_all l (rev (filter P (seq 0 n))) = Val (flat_map (fun k => if P k then [] else match nth_error l k with Some f => [f] | None => [] end) (seq 0 n) ++ skipn n l).
Proof.
  induction n as [|n IH]; intros l Hn; [reflexivity|]. rewrite seq_S, filter_app, rev_app_distr, flat_map_app. simpl.
  destruct (nth_error l n) as [f|] eqn:Ef; [|apply nth_error_None in Ef; lia].
  assert (Hf : n < length l) by lia.
  assert (Es : skipn n l = f :: skipn (S n) l).
  { clear - Ef. revert n Ef. induction l as [|x l IH]; intros [|n] Ef; simpl in *; try discriminate; [now injection Ef as ->|]. rewrite IH; auto. }
  destruct (P n) eqn:EP; simpl.
  - rewrite vec_remove_ok by auto. rewrite IH.
    2:{ rewrite app_length, firstn_length. lia. }
    rewrite app_nil_r. f_equal. f_equal.
    + apply flat_map_ext_in. intros k Hk. apply in_seq in Hk. destruct (P k); auto. rewrite nth_error_app1 by (rewrite firstn_length; lia).
      rewrite nth_error_firstn_lt; auto. lia.
    + rewrite skipn_app, firstn_length, Nat.min_l by lia. rewrite Nat.sub_diag. simpl. rewrite skipn_all2 by (rewrite firstn_length; lia). reflexivity.
  - rewrite IH by lia. rewrite <- app_assoc. simpl. now rewrite Es.
Qed.
Lemma keep_filter (P : face F -> bool) : forall (l : list (face F)) b (N : nat -> option (face F)),
  (forall k f, nth_error l k = Some f -> N (b + k) = Some f) ->
  flat_map (fun k => if match N k with Some f => negb (P f) | None => false end then [] else match N k with Some f => [f] | None => [] end) (seq b (length l)) = filter P l.
Proof.
  induction l as [|f l IH]; intros b N H; simpl; auto. assert (Hb := H 0 f eq_refl). rewrite Nat.add_0_r in Hb. rewrite Hb.
  rewrite (IH (S b) N). { destruct (P f); reflexivity. }
  intros k g Hg. replace (S b + k) with (b + S k) by lia. now apply H.
Qed.
Lemma C41_lemma h fs : (forall f, In f fs -> interior_point (face_polygon h f) <> None) ->
  merge_faces contains_point interior_point h fs = Val (filter (located h fs) fs).
Proof.
  intros H. unfold merge_faces. rewrite to_remove_val by auto. simpl. rewrite map_id. rewrite remove_desc by auto.
  rewrite skipn_all, app_nil_r. f_equal. rewrite <- (keep_filter (located h fs) fs 0 (nth_error fs)) by auto.
  apply flat_map_ext_in. intros k _. destruct (nth_error fs k) as [f|] eqn:E; auto.
  unfold located. assert (Hf := H f (nth_error_In _ _ E)). destruct (interior_point (face_polygon h f)); [reflexivity | tauto].
Qed.
Lemma C41_panic_lemma h fs : merge_faces contains_point interior_point h fs = Panic <->
  exists f, In f fs /\ interior_point (face_polygon h f) = None.
Proof.
  split.
  - intros H. destruct (existsb (fun f => match interior_point (face_polygon h f) with None => true | _ => false end) fs) eqn:E.
    + apply existsb_exists in E as (f & Hf & E). exists f. split; auto. destruct (interior_point _); [discriminate | reflexivity].
    + rewrite C41_lemma in H; [discriminate|]. intros f Hf En. assert (X : existsb (fun f => match interior_point (face_polygon h f) with None => true | _ => false end) fs = true); [|congruence].
      apply existsb_exists. exists f. now rewrite En.
  - intros H. unfold merge_faces. now rewrite to_remove_panic.
Qed.
Lemma C41_id_lemma h fs : (forall f, In f fs -> exists p, interior_point (face_polygon h f) = Some p /\ contains_point (face_polygon h f) p = true) ->
  merge_faces contains_point interior_point h fs = Val fs.
Proof.
  intros H. rewrite C41_lemma.
  - f_equal. apply filter_all_true. intros f Hf. destruct (H f Hf) as (p & E & C). unfold located. rewrite E.
    apply existsb_exists. exists (face_polygon h f). split; auto. now apply in_map.
  - intros f Hf E. destruct (H f Hf) as (p & E' & _). congruence.
Qed.
End FL.
