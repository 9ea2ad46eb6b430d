(** * Shared edges and polygons of rings *)
From Coq Require Import List ZArith NArith Arith Bool Lia Reals Lra Sorted.
From Verif Require Import Arith Vec Prim Cons Sketch Decomp Api Spec ArithR ExactSpec DecompSpec SpecLemmas ExactLemmas DecompLemmas
  ExactDecomp FaceLemmas PolygonExact.
Import ListNotations.

Section Adj.
Context {F : Type} {A : Arith F}.
(** lexicographic order of index pairs *)
Definition lex (p q : nat * nat) : Prop := fst p < fst q \/ (fst p = fst q /\ snd p < snd q).
Definition enum {T} (b : nat) (l : list T) := combine (seq b (length l)) l.
Lemma in_enum {T} (l : list T) : forall b i x, In (i, x) (enum b l) <-> b <= i /\ nth_error l (i - b) = Some x.
Proof.
  induction l as [|y l IH]; intros b i x; unfold enum; simpl.
  - split; [tauto|]. intros [_ H]. destruct (i - b); discriminate.
  - change (combine (seq (S b) (length l)) l) with (enum (S b) l). rewrite IH. split.
    + intros [[= -> ->]|[H1 H2]]; [rewrite Nat.sub_diag; auto|]. split; [lia|]. replace (i - b) with (S (i - S b)) by lia. auto.
    + intros [H1 H2]. destruct (Nat.eq_dec b i) as [->|N].
      * rewrite Nat.sub_diag in H2. injection H2 as ->. now left.
      * right. split; [lia|]. replace (i - b) with (S (i - S b)) in H2 by lia. auto.
Qed.
Definition row (h : heap F) (g : seg F) (i : nat) (b : nat) (lb : list (seg F)) : list (nat * nat) :=
  flat_map (fun pb => if reverse_equals h g (snd pb) then [(i, fst pb)] else []) (enum b lb).
Lemma in_row h g i lb b p : In p (row h g i b lb) <-> fst p = i /\ b <= snd p /\ exists g', nth_error lb (snd p - b) = Some g' /\ reverse_equals h g g' = true.
Proof.
  unfold row. rewrite in_flat_map. split.
  - intros ([j g'] & H & H2). apply in_enum in H as [H3 H4]. cbn [fst snd] in H2. destruct (reverse_equals h g g') eqn:E; [|destruct H2]. destruct H2 as [<-|[]]. simpl. eauto.
  - intros (<- & L & g' & H & E). exists (snd p, g'). split; [apply in_enum; auto|]. cbn [fst snd]. rewrite E. left. destruct p; auto.
Qed.
Lemma ss_app {T} (R : T -> T -> Prop) l m : StronglySorted R l -> StronglySorted R m -> (forall x y, In x l -> In y m -> R x y) -> StronglySorted R (l ++ m).
Proof.
  induction 1 as [|x l S IH Fx]; intros Hm H; simpl; auto. constructor; [apply IH; auto; intros; apply H; simpl; auto|].
  apply Forall_app. split; auto. apply Forall_forall. intros y Hy. apply H; simpl; auto.
Qed.
Lemma row_sorted h g i lb : forall b, StronglySorted lex (row h g i b lb).
Proof.
  induction lb as [|x lb IH]; intros b; [constructor|]. change (row h g i b (x :: lb)) with ((if reverse_equals h g x then [(i, b)] else []) ++ row h g i (S b) lb).
  apply ss_app; auto.
  - destruct (reverse_equals h g x); repeat constructor.
  - intros p q Hp Hq. apply in_row in Hq as (E & L & _). destruct (reverse_equals h g x); [|destruct Hp]. destruct Hp as [<-|[]]. right. simpl. lia.
Qed.
Definition pairs (h : heap F) (b : nat) (la lb : list (seg F)) : list (nat * nat) := flat_map (fun pa => row h (snd pa) (fst pa) 0 lb) (enum b la).
Lemma in_pairs h la lb b p : In p (pairs h b la lb) <-> b <= fst p /\ exists g g', nth_error la (fst p - b) = Some g /\ nth_error lb (snd p) = Some g' /\ reverse_equals h g g' = true.
Proof.
  unfold pairs. rewrite in_flat_map. split.
  - intros ([i g] & H & H2). apply in_enum in H as [H3 H4]. cbn [fst snd] in H2. apply in_row in H2 as (<- & _ & g' & H5 & E). rewrite Nat.sub_0_r in H5. eauto 6.
  - intros (L & g & g' & H & H' & E). exists (fst p, g). split; [apply in_enum; auto|]. apply in_row. cbn [fst snd]. rewrite Nat.sub_0_r. split; auto. split; [lia|]. eauto.
Qed.
Lemma pairs_sorted h la lb : forall b, StronglySorted lex (pairs h b la lb).
Proof.
  induction la as [|x la IH]; intros b; [constructor|]. change (pairs h b (x :: la) lb) with (row h x b 0 lb ++ pairs h (S b) la lb).
  apply ss_app; auto using row_sorted. intros p q Hp Hq. apply in_row in Hp as (E & _). apply in_pairs in Hq as (L & _). left. lia.
Qed.
Lemma adjacent_lemma h la lb : exists ps, StronglySorted lex ps /\
  (forall i j, In (i, j) ps <-> exists g g', nth_error la i = Some g /\ nth_error lb j = Some g' /\ seg_eq h g (seg_reverse g') = true) /\
  adjacent_edges h (RSegments la) (RSegments lb) = match ps with [] => None | _ => Some (map fst ps, map snd ps) end.
Proof.
  exists (pairs h 0 la lb). split; [apply pairs_sorted|]. split; [|reflexivity]. intros i j. rewrite in_pairs. cbn [fst snd]. rewrite Nat.sub_0_r. split.
  - intros (_ & H). exact H.
  - intros H. split; [lia | exact H].
Qed.
End Adj.

(** ** Polygons in exact arithmetic *)
Lemma v2eq_fin_refl a b : v2eq (Fin a, Fin b) (Fin a, Fin b) = true.
Proof. unfold v2eq. cbn [fst snd]. simpl. unfold Reqb. destruct (Req_EM_T a a), (Req_EM_T b b); tauto. Qed.
Definition fin2 (p : xR * xR) : Prop := exists a b, p = (Fin a, Fin b).
Lemma close_idem (l : list (xR * xR)) : List.Forall fin2 l -> close_ls (close_ls l) = close_ls l.
Proof.
  destruct l as [|x l]; auto. intros H. apply Forall_inv in H as (a & b & ->). unfold close_ls at 2 3.
  destruct (v2eq (Fin a, Fin b) (last ((Fin a, Fin b) :: l) (Fin a, Fin b))) eqn:E.
  - unfold close_ls. now rewrite E.
  - unfold close_ls. cbn [app]. change ((Fin a, Fin b) :: l ++ [(Fin a, Fin b)]) with (((Fin a, Fin b) :: l) ++ [(Fin a, Fin b)]). rewrite last_last, v2eq_fin_refl. reflexivity.
Qed.
(** the [k]-th of the 36 corners of the polygon of a circle *)
Definition corner (x y r : R) (k : nat) : R * R := (x + r * cos (2 * PI * INR k / 36), y + r * sin (2 * PI * INR k / 36))%R.
Definition xr2 (p : R * R) : xR * xR := (Fin (fst p), Fin (snd p)).
Lemma flit_nat n : (flit (Z.of_nat n) 0 : xR) = Fin (INR n).
Proof. simpl. rewrite INR_IZR_INZ. f_equal. field. Qed.
Lemma flit_36 : (flit 36 0 : xR) = Fin 36. Proof. simpl. f_equal. field. Qed.
Lemma div_R a b : b <> 0%R -> Fin a /f Fin b = Fin (a / b).
Proof. intros H. simpl. unfold Reqb. destruct (Req_EM_T b 0); tauto. Qed.
Lemma circle_points_R h c x y r : getP h (c_center c) = mkPoint (Fin x) (Fin y) (p_gx (getP h (c_center c))) (p_gy (getP h (c_center c))) -> c_radius c = Fin r ->
  circle_points h c = map (fun k => xr2 (corner x y r k)) (seq 0 36).
Proof.
  intros Hp Hr. unfold circle_points. apply map_ext. intros k. unfold pdata. rewrite Hp, Hr, flit_nat, flit_36, div_R by lra. cbn [p_x p_y fst snd].
  change (Fin (INR k / 36) *f ftau) with (Fin (INR k / 36 * (2 * PI))). unfold xr2, corner. cbn [fst snd].
  replace (2 * PI * INR k / 36)%R with (INR k / 36 * (2 * PI))%R by lra. reflexivity.
Qed.
Lemma corner_on x y r k : ((fst (corner x y r k) - x) ^ 2 + (snd (corner x y r k) - y) ^ 2 = r ^ 2)%R.
Proof. unfold corner. cbn [fst snd]. pose proof (sin2_cos2 (2 * PI * INR k / 36)) as H. unfold Rsqr in H. set (c := cos _) in *. set (s := sin _) in *. replace (x + r * c - x)%R with (r * c)%R by lra. replace (y + r * s - y)%R with (r * s)%R by lra. nra. Qed.
Lemma corner_last x y r : r <> 0%R -> v2eq (xr2 (corner x y r 0)) (xr2 (corner x y r 35)) = false.
Proof.
  intros H. apply not_true_iff_false. change (xr2 (corner x y r 0)) with (F2 (corner x y r 0)). change (xr2 (corner x y r 35)) with (F2 (corner x y r 35)). rewrite v2eq_F2. unfold corner. intros E. apply (f_equal snd) in E. cbn [snd] in E.
  assert (E2 : (sin (2 * PI * INR 0 / 36) = sin (2 * PI * INR 35 / 36))%R) by (apply (Rmult_eq_reg_l r); auto; lra).
  simpl INR in E2. replace (2 * PI * 0 / 36)%R with 0%R in E2 by lra. rewrite sin_0 in E2.
  match type of E2 with _ = sin ?a => replace a with (- (PI / 18) + 2 * PI)%R in E2 by lra end. rewrite sin_plus, sin_2PI, cos_2PI, sin_neg in E2.
  pose proof PI_RGT_0. assert (0 < sin (PI / 18))%R by (apply sin_gt_0; lra). lra.
Qed.
Lemma circle_polygon h c x y r : getP h (c_center c) = mkPoint (Fin x) (Fin y) (p_gx (getP h (c_center c))) (p_gy (getP h (c_center c))) -> c_radius c = Fin r -> r <> 0%R ->
  ring_polygon h (RCircle c) = mkPoly (map (fun k => xr2 (corner x y r k)) (seq 0 36 ++ [0])) [].
Proof.
  intros Hp Hr H. unfold ring_polygon, poly_new. rewrite (circle_points_R h c x y r Hp Hr). cbn [map]. f_equal.
  rewrite map_app. unfold close_ls. cbn [map seq]. set (f := fun k => xr2 (corner x y r k)).
  match goal with |- context [last ?l ?d] => change (last l d) with (f 35) end. cbv beta. change (v2eq (xr2 (corner x y r 0)) (f 35)) with (v2eq (xr2 (corner x y r 0)) (xr2 (corner x y r 35))). rewrite corner_last; auto.
Qed.
Lemma start_F2 h g : seg_fin h g -> get_start h g = xr2 (from_pt h g).
Proof. intros H. destruct H as [H _]. exact H. Qed.
Section Once.
Context {F : Type} {A : Arith F}.
Lemma cwalk_once (h : heap F) segs used p0 c w : cwalk h segs used p0 c w -> forall u d, w = u ++ [d] -> forall x, In x u -> v2eq (get_end h (snd x)) p0 = false.
Proof.
  induction 1 as [c E|c d w E N W IH]; intros u e Eu x Hx.
  - destruct u as [|y u]; [destruct Hx|]. destruct u; discriminate.
  - destruct u as [|y u]; [destruct Hx|]. injection Eu as -> Eu. destruct Hx as [<-|Hx]; auto. eapply IH; eauto.
Qed.
Lemma start_once (h : heap F) s l g : In (RSegments (l ++ [g])) (fst (find_rings h s)) -> forall x y t, l = y :: t -> In x l -> v2eq (get_end h x) (get_start h y) = false.
Proof.
  intros H x y t E Hx. apply in_rings in H as [_ [(w & used & i & g0 & Er & Hn & W)|(c & _ & Er)]]; [|discriminate]. injection Er as Er.
  destruct (cwalk_chain _ _ _ _ _ _ W) as (_ & _ & tw & Ew). rewrite Ew in Er. subst l. cbn [map snd app] in Er. injection Er as -> Er.
  destruct (exists_last (l := (i, g0) :: tw)) as (u & d & Eu); [discriminate|]. rewrite Eu in Ew. assert (Q := f_equal (map snd) Eu). rewrite map_app in Q. cbn [map snd] in Q.
  rewrite <- Er in Q. change (g0 :: t ++ [g]) with ((g0 :: t) ++ [g]) in Q. apply app_inj_tail in Q as [Q _]. rewrite Q in Hx. apply in_map_iff in Hx as (z & <- & Hz).
  eapply (cwalk_once _ _ _ _ _ _ W); eauto.
Qed.
End Once.
Lemma segment_polygon h s l : valid h s -> geo_finite h s -> In (RSegments l) (fst (find_rings h s)) ->
  exists x t, l = x :: t /\ ring_polygon h (RSegments l) = mkPoly (map (fun g => xr2 (from_pt h g)) l ++ [xr2 (from_pt h x)]) [].
Proof.
  intros V G H. destruct (ring_size h s l V G H) as (L & _ & Fl). assert (C := C35_lemma h s _ H). cbn in C. destruct C as [(x & t & -> & Ch & _) _].
  exists x, t. split; auto. unfold ring_polygon, poly_new. cbn [map]. f_equal.
  assert (M : map (get_start h) (x :: t) = map (fun g => xr2 (from_pt h g)) (x :: t)).
  { apply map_ext_in. intros g Hg. rewrite List.Forall_forall in Fl. now apply start_F2, Fl. }
  unfold close_ls. change (get_start h x :: map (get_start h) t) with (map (get_start h) (x :: t)). rewrite M. cbn [map]. rewrite (start_F2 h x) by (rewrite List.Forall_forall in Fl; apply Fl; now left).
  destruct (exists_last (l := t)) as (u & d & ->); [destruct t; simpl in L; [lia|discriminate]|].
  destruct (exists_last (l := x :: u)) as (u' & e & E); [discriminate|].
  assert (V2 : v2eq (get_end h e) (get_start h d) = true).
  { clear - Ch E. change (x :: u ++ [d]) with ((x :: u) ++ [d]) in Ch. rewrite E in Ch. rewrite <- app_assoc in Ch. clear E. induction u' as [|y u' IH]; [apply Ch|]. apply IH. clear IH. destruct u'; simpl in *; tauto. }
  assert (O := start_once h s (x :: u) d H e x u eq_refl ltac:(rewrite E; apply in_or_app; right; now left)).
  change (xr2 (from_pt h x) :: map (fun g => xr2 (from_pt h g)) (u ++ [d])) with (map (fun g => xr2 (from_pt h g)) ((x :: u) ++ [d])). rewrite map_app. cbn [map]. rewrite last_last.
  rewrite List.Forall_forall in Fl. assert (Fd : seg_fin h d) by (apply Fl; right; apply in_or_app; right; now left). assert (Fx : seg_fin h x) by (apply Fl; now left).
  assert (Fe : seg_fin h e) by (apply Fl; change (x :: u ++ [d]) with ((x :: u) ++ [d]); rewrite E; apply in_or_app; left; apply in_or_app; right; now left).
  destruct (v2eq (xr2 (from_pt h x)) (xr2 (from_pt h d))) eqn:Q; auto. exfalso.
  rewrite (start_F2 h x Fx) in O. rewrite (start_F2 h d Fd) in V2. destruct Fe as (_ & Ee & _). rewrite Ee in *.
  apply not_true_iff_false in O. apply O. apply v2eq_F2. apply v2eq_F2 in V2. apply v2eq_F2 in Q. congruence.
Qed.
(** polygons of the rings found are closed *)
Lemma ring_closed h s r : valid h s -> geo_finite h s -> In r (fst (find_rings h s)) -> close_ls (ext (ring_polygon h r)) = ext (ring_polygon h r).
Proof.
  intros V G H. destruct r as [c|l].
  - assert (Hp := H). apply in_rings in Hp as [Hp _]. apply C35_lemma in H. destruct H as (l & id & Hi & ->).
    assert (R : registered s (PCircle l)) by (apply (valid_reg _ _ _ V); now apply (in_map snd) in Hi). destruct (G _ R) as [Hd Hr].
    specialize (Hr (PPoint (c_center (getC h l))) (or_introl eq_refl)). simpl in Hd, Hr. apply andb_true_iff in Hd as [Hd _]. apply andb_true_iff in Hr as [Hx Hr]. apply andb_true_iff in Hr as [Hy _].
    destruct (c_radius (getC h l)) as [r| | |] eqn:Er; try discriminate. destruct (getP h (c_center (getC h l))) as [px py gx gy] eqn:Ep. cbn [p_x p_y] in *.
    destruct px as [x| | |]; try discriminate. destruct py as [y| | |]; try discriminate.
    assert (r <> 0%R). { intros ->. unfold fgt in Hp. rewrite f0_R in Hp. simpl in Hp. rewrite Er in Hp. simpl in Hp. unfold Rltb in Hp. destruct (Rlt_dec _ _); [lra|discriminate]. }
    rewrite (circle_polygon h _ x y r); auto; [|rewrite Ep; reflexivity]. cbn [ext]. rewrite map_app. cbn [map]. unfold close_ls. change (map (fun k => xr2 (corner x y r k)) (seq 0 36)) with (xr2 (corner x y r 0) :: map (fun k => xr2 (corner x y r k)) (seq 1 35)).
    cbn [app]. rewrite app_comm_cons, last_last. unfold xr2 at 1 2. now rewrite v2eq_fin_refl.
  - destruct (segment_polygon h s l V G H) as (x & t & -> & ->). cbn [ext map app]. unfold close_ls. rewrite app_comm_cons, last_last. unfold xr2 at 1 2. now rewrite v2eq_fin_refl.
Qed.
(** a face's polygon: the polygon of its exterior, with the exteriors of its holes as interiors *)
Lemma face_polygon_lemma cp h s fs f : valid h s -> geo_finite h s -> get_faces cp h s = Val fs -> In f fs ->
  face_polygon h f = mkPoly (ext (ring_polygon h (face_ext f))) (map (fun g => ext (ring_polygon h (face_ext g))) (face_holes f)).
Proof.
  intros V G E Hf. destruct (C39_lemma cp h s) as (fs' & E' & M). assert (fs' = fs) by congruence. subst fs'.
  assert (Re : In (face_ext f) (fst (find_rings h s))) by (rewrite <- M; now apply in_map).
  unfold face_polygon, poly_new. rewrite (ring_closed _ _ _ V G Re). f_equal. rewrite map_map. apply map_ext_in. intros g Hg. cbn [ext].
  apply In_nth_error in Hf as [b Hb].
  assert (Rg : In (face_ext g) (fst (find_rings h s))).
  { apply (in_map face_ext) in Hg. apply (C40_lemma cp h s fs E b f Hb) in Hg as (i & c & Hi & _). eapply nth_error_In; eauto. }
  now rewrite !(ring_closed _ _ _ V G Rg).
Qed.
