(** * Running the calls that build a sketch of points, lines and constraints *)
From Coq Require Import List NArith Arith Bool Lia.
From Verif Require Import Arith Vec Prim Cons Sketch Solve Api Spec Bench BenchSpec HeapLemmas BookLemmas.
Import ListNotations.

Section Build.
Context {F : Type} {A : Arith F}.
Variable pinv : mat F -> F -> pinv_res (mat F).

Fixpoint number (i : nat) (ps : list pcell) : list (N * pcell) :=
  match ps with [] => [] | p :: ps => (N.of_nat i, p) :: number (S i) ps end.
Lemma number_app ps : forall i qs, number i (ps ++ qs) = number i ps ++ number (i + length ps) qs.
Proof. induction ps as [|p ps IH]; intros i qs; simpl; [now rewrite Nat.add_0_r|]. rewrite IH. now replace (i + S (length ps)) with (S i + length ps) by lia. Qed.
Lemma number_snd ps : forall i, map snd (number i ps) = ps.
Proof. induction ps; intros; simpl; f_equal; auto. Qed.
Lemma number_fst ps : forall i, Forall (fun x => (x < N.of_nat (i + length ps))%N) (map fst (number i ps)).
Proof.
  induction ps as [|p ps IH]; intros i; simpl; constructor; [lia|]. replace (i + S (length ps)) with (S i + length ps) by lia. apply IH.
Qed.
Lemma number_map {T} (f : T -> pcell) ts : forall i, number i (map f ts) = map (fun kt => (N.of_nat (fst kt), f (snd kt))) (combine (seq i (length ts)) ts).
Proof. induction ts; intros; simpl; f_equal; auto. Qed.

Definition bst (P : list (point F)) (L : list line) (K : list (con F)) (ps : list pcell) : state F :=
  (mkHeap P L [] [] K, mkSketch (number 0 ps) (N.of_nat (length ps)) (seq 0 (length K))).

Lemma bst_has P L K ps c : has_prim (snd (bst P L K ps)) c = true <-> In c ps.
Proof. rewrite has_prim_In. unfold cells, bst; cbn [snd s_prims]. now rewrite number_snd. Qed.

Lemma add_bst P L K ps c : (forall r, In r (prim_refs (fst (bst P L K ps)) c) -> In r ps) -> ~ In c ps -> few (length ps) ->
  add_primitive (fst (bst P L K ps)) (snd (bst P L K ps)) c = (snd (bst P L K (ps ++ [c])), ROk (N.of_nat (length ps))).
Proof.
  intros Hr Hc Hf. unfold add_primitive.
  assert (E : forallb (has_prim (snd (bst P L K ps))) (prim_refs (fst (bst P L K ps)) c) = true) by (apply forallb_forall; intros r R; apply bst_has; auto).
  rewrite E. cbn [negb].
  destruct (has_prim (snd (bst P L K ps)) c) eqn:E2; [now apply bst_has in E2|].
  unfold bst at 1 2 3 4 5 6; cbn [snd s_next s_prims s_cons].
  assert (Hs : (N.of_nat (length ps) + 1 < u64N)%N) by exact Hf.
  rewrite (u64_succ_small _ Hs), (u64_pred_succ _ Hs), bt_insert_last by exact (number_fst ps 0).
  unfold bst; cbn [snd]. rewrite number_app, app_length. cbn [number length]. f_equal. f_equal. lia.
Qed.

Lemma step_point P L K ps x y : ~ In (PPoint (length P)) ps -> few (length ps) ->
  run pinv (bst P L K ps) [NewPoint x y; AddPrimitive (PPoint (length P))] [RetLoc (length P); RetId (N.of_nat (length ps))]
    (bst (P ++ [Point2_new x y]) L K (ps ++ [PPoint (length P)])).
Proof.
  intros Hn Hf. eapply run_cons with (st1 := bst (P ++ [Point2_new x y]) L K ps); [exact I | reflexivity|].
  eapply run_cons with (st1 := bst (P ++ [Point2_new x y]) L K (ps ++ [PPoint (length P)])).
  - cbn. rewrite app_length. simpl. lia.
  - unfold step. unfold bst at 1. change (mkHeap (P ++ [Point2_new x y]) L [] [] K) with (fst (bst (P ++ [Point2_new x y]) L K ps)).
    change (mkSketch (number 0 ps) (N.of_nat (length ps)) (seq 0 (length K))) with (snd (bst (P ++ [Point2_new x y]) L K ps)).
    rewrite add_bst; auto. intros r [].
  - constructor.
Qed.
Lemma getL_last P L K l : getL (mkHeap (F:=F) P (L ++ [l]) [] [] K) (length L) = l.
Proof. unfold getL; cbn [h_lines]. rewrite app_nth2, Nat.sub_diag; auto. Qed.
Lemma getK_last P L K c : getK (mkHeap (F:=F) P L [] [] (K ++ [c])) (length K) = c.
Proof. unfold getK; cbn [h_cons]. rewrite app_nth2, Nat.sub_diag; auto. Qed.
Lemma step_line P L K ps a b : In (PPoint a) ps -> In (PPoint b) ps -> a < length P -> b < length P -> ~ In (PLine (length L)) ps -> few (length ps) ->
  run pinv (bst P L K ps) [NewLine a b; AddPrimitive (PLine (length L))] [RetLoc (length L); RetId (N.of_nat (length ps))]
    (bst P (L ++ [mkLine a b]) K (ps ++ [PLine (length L)])).
Proof.
  intros Ha Hb La Lb Hn Hf. eapply run_cons with (st1 := bst P (L ++ [mkLine a b]) K ps); [split; auto | reflexivity|].
  eapply run_cons with (st1 := bst P (L ++ [mkLine a b]) K (ps ++ [PLine (length L)])).
  - cbn. rewrite app_length. simpl. lia.
  - unfold step. unfold bst at 1. change (mkHeap P (L ++ [mkLine a b]) [] [] K) with (fst (bst P (L ++ [mkLine a b]) K ps)).
    change (mkSketch (number 0 ps) (N.of_nat (length ps)) (seq 0 (length K))) with (snd (bst P (L ++ [mkLine a b]) K ps)).
    rewrite add_bst; auto. intros r. cbn [prim_refs fst bst]. rewrite getL_last. intros [<-|[<-|[]]]; auto.
  - constructor.
Qed.
Lemma step_con P L K ps c : con_new_ok c = true -> (forall r, In r (con_refs c) -> In r ps) -> List.Forall (cell_ok (mkHeap P L [] [] K)) (con_refs c) ->
  run pinv (bst P L K ps) [NewCon c; AddConstraint (length K)] [RetLoc (length K); RetOk] (bst P L (K ++ [c]) ps).
Proof.
  intros Ho Hr Hc. set (s1 := mkSketch (number 0 ps) (N.of_nat (length ps)) (seq 0 (length K))).
  eapply run_cons with (st1 := (mkHeap P L [] [] (K ++ [c]), s1)); [exact Hc| |].
  - unfold step, bst. rewrite Ho. reflexivity.
  - eapply run_cons with (st1 := bst P L (K ++ [c]) ps); [| |constructor].
    + cbn. rewrite app_length. simpl. lia.
    + unfold step. unfold add_constraint. rewrite getK_last.
      assert (E : forallb (has_prim s1) (con_refs c) = true).
      { apply forallb_forall. intros r R. apply (bst_has P L K ps). auto. }
      rewrite E. cbn [negb]. assert (E2 : has_con s1 (length K) = false).
      { apply has_con_nIn. unfold s1; cbn [s_cons]. rewrite in_seq. lia. }
      rewrite E2. unfold bst, s1; cbn [s_cons s_prims s_next of_res]. rewrite app_length. cbn [length]. rewrite seq_app. reflexivity.
Qed.

Lemma step_point' i k P L K ps x y : length P = i -> length ps = k -> ~ In (PPoint i) ps -> few k ->
  run pinv (bst P L K ps) [NewPoint x y; AddPrimitive (PPoint i)] [RetLoc i; RetId (N.of_nat k)] (bst (P ++ [Point2_new x y]) L K (ps ++ [PPoint i])).
Proof. intros <- <-. apply step_point. Qed.
Lemma step_line' i k P L K ps a b : length L = i -> length ps = k -> In (PPoint a) ps -> In (PPoint b) ps -> a < length P -> b < length P -> ~ In (PLine i) ps -> few k ->
  run pinv (bst P L K ps) [NewLine a b; AddPrimitive (PLine i)] [RetLoc i; RetId (N.of_nat k)] (bst P (L ++ [mkLine a b]) K (ps ++ [PLine i])).
Proof. intros <- <-. apply step_line. Qed.
Lemma step_con' i P L K ps c : length K = i -> con_new_ok c = true -> (forall r, In r (con_refs c) -> In r ps) -> List.Forall (cell_ok (mkHeap P L [] [] K)) (con_refs c) ->
  run pinv (bst P L K ps) [NewCon c; AddConstraint i] [RetLoc i; RetOk] (bst P L (K ++ [c]) ps).
Proof. intros <-. apply step_con. Qed.

Lemma run_app2 st o1 o2 r1 r2 st1 os rs st2 : run pinv st [o1; o2] [r1; r2] st1 -> run pinv st1 os rs st2 ->
  run pinv st (o1 :: o2 :: os) (r1 :: r2 :: rs) st2.
Proof. intros H1 H2. exact (run_app pinv _ _ _ _ _ _ _ H1 H2). Qed.

(** ** rounds *)
Lemma round_points (f : nat -> F * F) m : forall i P ps, few (length ps + m) -> length P = i -> (forall j, i <= j -> ~ In (PPoint j) ps) ->
  forall L K, length ps = i ->
  run pinv (bst P L K ps) (flat_map (fun i => [NewPoint (fst (f i)) (snd (f i)); AddPrimitive (PPoint i)]) (seq i m))
    (flat_map (fun i => [RetLoc i; RetId (N.of_nat i)]) (seq i m))
    (bst (P ++ map (fun i => Point2_new (fst (f i)) (snd (f i))) (seq i m)) L K (ps ++ map PPoint (seq i m))).
Proof.
  induction m as [|m IH]; intros i P ps Hf HP Hn L K Hl; cbn [seq flat_map map]; [rewrite !app_nil_r; constructor|].
  assert (E : run pinv (bst P L K ps) [NewPoint (fst (f i)) (snd (f i)); AddPrimitive (PPoint i)] [RetLoc i; RetId (N.of_nat i)]
    (bst (P ++ [Point2_new (fst (f i)) (snd (f i))]) L K (ps ++ [PPoint i]))).
  { apply step_point'; auto. unfold few in *; lia. }
  eapply run_app; [exact E|]. specialize (IH (S i) (P ++ [Point2_new (fst (f i)) (snd (f i))]) (ps ++ [PPoint i])).
  rewrite <- !app_assoc in IH. cbn [app] in IH. apply IH; try (rewrite app_length; simpl; lia).
  - rewrite app_length. simpl. unfold few in *. lia.
  - intros j Hj. rewrite in_app_iff. intros [H|[H|[]]]; [apply (Hn j); auto; lia | injection H; lia].
Qed.
Lemma round_cons1 (c : nat -> con F) m : forall i P L K ps, length K = i ->
  (forall j, i <= j < i + m -> con_new_ok (c j) = true /\ (forall r, In r (con_refs (c j)) -> In r ps /\ cell_ok (mkHeap P L [] [] K) r)) ->
  run pinv (bst P L K ps) (flat_map (fun i => [NewCon (c i); AddConstraint i]) (seq i m)) (flat_map (fun i => [RetLoc i; RetOk]) (seq i m))
    (bst P L (K ++ map c (seq i m)) ps).
Proof.
  induction m as [|m IH]; intros i P L K ps HK Hc; cbn [seq flat_map map]; [rewrite app_nil_r; constructor|].
  destruct (Hc i) as [H1 H2]; [lia|]. eapply run_app.
  - apply step_con'; auto; [intros r R; now apply H2 | apply Forall_forall; intros r R; now apply H2].
  - specialize (IH (S i) P L (K ++ [c i]) ps). rewrite <- app_assoc in IH. apply IH; [rewrite app_length; simpl; lia|].
    intros j Hj. destruct (Hc j) as [H3 H4]; [lia|]. split; auto.
Qed.
(** a line from point i to point i + 1 and two constraints, for i = j, ..., j + m - 1 *)
Lemma round_steps (c d : nat -> con F) n k0 m : forall j P L K, length P = n -> length L = j -> length K = k0 + 2 * j -> j + m < n -> few (n + n) ->
  (forall i, j <= i < j + m -> con_new_ok (c i) = true /\ con_new_ok (d i) = true /\
    forall r, In r (con_refs (c i)) \/ In r (con_refs (d i)) -> match r with PPoint p => p < n | PLine l => l <= i | _ => False end) ->
  run pinv (bst P L K (map PPoint (seq 0 n) ++ map PLine (seq 0 j)))
    (flat_map (fun i => [NewLine i (S i); AddPrimitive (PLine i); NewCon (c i); AddConstraint (k0 + 2 * i); NewCon (d i); AddConstraint (k0 + 2 * i + 1)]) (seq j m))
    (flat_map (fun i => [RetLoc i; RetId (N.of_nat (n + i)); RetLoc (k0 + 2 * i); RetOk; RetLoc (k0 + 2 * i + 1); RetOk]) (seq j m))
    (bst P (L ++ map (fun i => mkLine i (S i)) (seq j m)) (K ++ flat_map (fun i => [c i; d i]) (seq j m))
      (map PPoint (seq 0 n) ++ map PLine (seq 0 (j + m)))).
Proof.
  induction m as [|m IH]; intros j P L K HP HL HK Hm Hf Hc; cbn [seq flat_map map]; [rewrite !app_nil_r, Nat.add_0_r; constructor|].
  destruct (Hc j) as (H1 & H2 & H3); [lia|]. set (ps := map PPoint (seq 0 n) ++ map PLine (seq 0 j)).
  assert (Lps : length ps = n + j) by (unfold ps; now rewrite app_length, !map_length, !seq_length).
  assert (Eps : ps ++ [PLine j] = map PPoint (seq 0 n) ++ map PLine (seq 0 (j + 1))) by (unfold ps; rewrite seq_app, map_app, <- app_assoc; reflexivity).
  assert (Ip : forall p, p < n -> In (PPoint p) ps) by (intros p Hp; unfold ps; apply in_app_iff; left; apply in_map, in_seq; lia).
  assert (Il : forall l, l <= j -> In (PLine l) (ps ++ [PLine j])).
  { intros l Hl. rewrite Eps. apply in_app_iff; right. apply in_map, in_seq. lia. }
  assert (R1 : run pinv (bst P L K ps) [NewLine j (S j); AddPrimitive (PLine j)] [RetLoc j; RetId (N.of_nat (n + j))]
    (bst P (L ++ [mkLine j (S j)]) K (ps ++ [PLine j]))).
  { apply step_line'; try (apply Ip); try lia; auto.
    - unfold ps. rewrite in_app_iff, !in_map_iff. intros [(x & E & _)|(x & E & H)]; [discriminate|]. injection E as ->. apply in_seq in H. lia.
    - unfold few in *. lia. }
  assert (Ok : forall K' r, In r (con_refs (c j)) \/ In r (con_refs (d j)) -> In r (ps ++ [PLine j]) /\ cell_ok (mkHeap P (L ++ [mkLine j (S j)]) [] [] K') r).
  { intros K' r Hr. apply H3 in Hr. destruct r as [p|l|a|a]; try contradiction; cbn [cell_ok h_pts h_lines].
    - split; [apply in_app_iff; auto | lia].
    - split; [auto | rewrite app_length; simpl; lia]. }
  eapply run_app2; [exact R1|].
  assert (R2 : run pinv (bst P (L ++ [mkLine j (S j)]) K (ps ++ [PLine j])) [NewCon (c j); AddConstraint (k0 + 2 * j)] [RetLoc (k0 + 2 * j); RetOk]
    (bst P (L ++ [mkLine j (S j)]) (K ++ [c j]) (ps ++ [PLine j]))).
  { apply step_con'; auto; [intros r R; apply (Ok K r); auto | apply Forall_forall; intros r R; apply Ok; auto]. }
  eapply run_app2; [exact R2|].
  assert (R3 : run pinv (bst P (L ++ [mkLine j (S j)]) (K ++ [c j]) (ps ++ [PLine j])) [NewCon (d j); AddConstraint (k0 + 2 * j + 1)] [RetLoc (k0 + 2 * j + 1); RetOk]
    (bst P (L ++ [mkLine j (S j)]) ((K ++ [c j]) ++ [d j]) (ps ++ [PLine j]))).
  { assert (E : length (K ++ [c j]) = k0 + 2 * j + 1) by (rewrite app_length; simpl; lia).
    apply step_con'; auto; [intros r R; apply (Ok K r); auto | apply Forall_forall; intros r R; apply Ok; auto]. }
  eapply run_app2; [exact R3|].
  specialize (IH (S j) P (L ++ [mkLine j (S j)]) ((K ++ [c j]) ++ [d j])). rewrite <- !app_assoc in IH. cbn [app] in IH.
  rewrite Eps, <- !app_assoc. cbn [app]. rewrite !Nat.add_1_r. replace (j + S m) with (S j + m) by lia. apply IH; auto; try lia.
  - rewrite app_length; simpl; lia.
  - rewrite app_length; simpl; lia.
  - intros i Hi. apply Hc. lia.
Qed.

Lemma number_two n m : number 0 (map PPoint (seq 0 n) ++ map PLine (seq 0 m)) = points_then_lines n m.
Proof.
  rewrite number_app, !number_map, !map_length, !seq_length. unfold points_then_lines. f_equal.
  - generalize 0. induction n; intros k; simpl; f_equal; auto.
  - assert (G : forall m a b, map (fun kt => (N.of_nat (fst kt), PLine (snd kt))) (combine (seq (a + b) m) (seq b m)) = map (fun i => (N.of_nat (a + i), PLine i)) (seq b m)).
    { clear m. induction m as [|m IH]; intros a b; simpl; f_equal. replace (S (a + b)) with (a + S b) by lia. apply IH. }
    rewrite <- (Nat.add_0_r (0 + n)) at 1. apply G.
Qed.
Lemma flat_map_ext_in {S T} (f g : S -> list T) l : (forall x, In x l -> f x = g x) -> flat_map f l = flat_map g l.
Proof. induction l; simpl; intros H; auto. rewrite H, IHl; auto. Qed.
Lemma map_const {T} (x : T) n : forall i, map (fun _ => x) (seq i n) = repeat x n.
Proof. induction n; intros; simpl; f_equal; auto. Qed.
Lemma len2 {S T} (f g : S -> T) l : length (flat_map (fun i => [f i; g i]) l) = 2 * length l.
Proof. induction l; simpl; lia. Qed.

Definition stairs_c (i : nat) : con F := if Nat.even i then HorizontalDistance i (S i) lit_08 else VerticalDistance i (S i) lit_08.
Definition stairs_d (i : nat) : con F := if Nat.even i then HorizontalLine i else VerticalLine i.
Lemma stairs_cons_eq n : stairs_cons n = FixPoint 0 f0 f0 :: flat_map (fun i => [stairs_c i; stairs_d i]) (seq 0 (n - 1)).
Proof. unfold stairs_cons. f_equal. apply flat_map_ext. intros i. unfold stairs_c, stairs_d. now destruct (Nat.even i). Qed.

Lemma stairs_run n : 1 <= n -> few (n + n) -> ffin (f0 : F) = true -> ffin (lit_08 : F) = true ->
  run pinv init (stairs_ops n) (stairs_rets n) (stairs_heap n, stairs_sketch n).
Proof.
  intros Hn Hf H0 H8. unfold stairs_ops, stairs_rets.
  change (@init F) with (@bst [] [] [] []).
  eapply run_app.
  { apply (round_points (fun _ => (f0, f0)) n 0 [] []); auto. simpl. unfold few in *; lia. }
  cbn [app]. eapply run_app2; [apply (step_con _ _ []); cbn|].
  - now rewrite H0.
  - intros r [<-|[]]. apply in_map, in_seq. lia.
  - constructor; [|constructor]. cbn. rewrite map_length, seq_length. lia.
  - assert (R := round_steps stairs_c stairs_d n 1 (n - 1) 0 (map (fun _ => Point2_new f0 f0) (seq 0 n)) [] [FixPoint 0 f0 f0]).
    cbn [seq map app Nat.add] in R. rewrite app_nil_r in R.
    rewrite (flat_map_ext (fun i => [NewLine i (S i); AddPrimitive (PLine i); NewCon (stairs_c i); AddConstraint (S (2 * i)); NewCon (stairs_d i); AddConstraint (S (2 * i + 1))])
      stairs_step) in R.
    2:{ intros i. unfold stairs_step, stairs_c, stairs_d. rewrite !Nat.add_1_r, Nat.add_succ_r, Nat.add_1_r. now destruct (Nat.even i). }
    rewrite (flat_map_ext (fun i => [RetLoc i; RetId (N.of_nat (n + i)); RetLoc (S (2 * i)); RetOk; RetLoc (S (2 * i + 1)); RetOk])
      (fun i => [RetLoc i; RetId (N.of_nat (n + i)); RetLoc (2 * i + 1); RetOk; RetLoc (2 * i + 2); RetOk])) in R.
    2:{ intros i. now rewrite !Nat.add_1_r, Nat.add_succ_r, Nat.add_1_r. }
    assert (E : (stairs_heap n, stairs_sketch n) = bst (map (fun _ => Point2_new f0 f0) (seq 0 n)) (map (fun i => mkLine i (S i)) (seq 0 (n - 1)))
      (FixPoint 0 f0 f0 :: flat_map (fun i => [stairs_c i; stairs_d i]) (seq 0 (n - 1))) (map PPoint (seq 0 n) ++ map PLine (seq 0 (n - 1)))).
    { unfold bst, stairs_heap, stairs_sketch, polyline. rewrite number_two, stairs_cons_eq, map_const, app_length, !map_length, !seq_length.
      cbn [length]. now rewrite len2, seq_length. }
    rewrite E. apply R; auto; try lia.
    + now rewrite map_length, seq_length.
    + intros i Hi. unfold stairs_c, stairs_d. destruct (Nat.even i); cbn [con_new_ok con_refs In]; (split; [auto|]; split; [auto|]);
      intros r [[<-|[<-|[]]]|[<-|[]]]; lia.
Qed.
Lemma circle_run n : 1 <= n -> few (n + n) ->
  (forall i, i < n -> ffin (true_x i : F) = true /\ ffin (true_y i : F) = true) ->
  (forall i, S i < n -> ffin (circle_distance i : F) = true /\ ffin (circle_angle n i : F) = true) ->
  run pinv init (circle_ops n) (circle_rets n) (circle_heap n, circle_sketch n).
Proof.
  intros Hn Hf Hx Hd. unfold circle_ops, circle_rets.
  change (@init F) with (@bst [] [] [] []).
  eapply run_app.
  { apply (round_points (fun i => (f0, fnat i /f fnat n)) n 0 [] []); auto. simpl. unfold few in *; lia. }
  cbn [app]. eapply run_app.
  { apply (round_cons1 (fun i => FixPoint i (true_x i) (true_y i)) n 0); auto. intros j Hj. cbn [con_new_ok con_refs In].
    destruct (Hx j) as [-> ->]; [lia|]. split; auto. intros r [<-|[]]. cbn [cell_ok h_pts]. rewrite map_length, seq_length. split; [|lia]. apply in_map, in_seq. lia. }
  assert (R := round_steps (fun i => EuclideanDistance i (S i) (circle_distance i)) (fun i => AngleBetweenPoints (S i) ((i + n - 1) mod n) i (circle_angle n i))
    n n (n - 1) 0 (map (fun i => Point2_new f0 (fnat i /f fnat n)) (seq 0 n)) [] (map (fun i => FixPoint i (true_x i) (true_y i)) (seq 0 n))).
  cbn [seq map app] in R. rewrite app_nil_r in R. cbn [app fst snd].
  assert (E : (circle_heap n, circle_sketch n) = bst (map (fun i => Point2_new f0 (fnat i /f fnat n)) (seq 0 n)) (map (fun i => mkLine i (S i)) (seq 0 (n - 1)))
    (map (fun i => FixPoint i (true_x i) (true_y i)) (seq 0 n) ++ flat_map (fun i => [EuclideanDistance i (S i) (circle_distance i);
      AngleBetweenPoints (S i) ((i + n - 1) mod n) i (circle_angle n i)]) (seq 0 (n - 1))) (map PPoint (seq 0 n) ++ map PLine (seq 0 (n - 1)))).
  { unfold bst, circle_heap, circle_sketch, polyline. rewrite number_two, !app_length, len2, !map_length, !seq_length. reflexivity. }
  rewrite E. apply R; auto; try lia.
  - now rewrite map_length, seq_length.
  - rewrite map_length, seq_length. lia.
  - intros i Hi. destruct (Hd i) as [H1 H2]; [lia|]. cbn [con_new_ok con_refs In]. split; auto. split; auto.
    assert (M : (i + n - 1) mod n < n) by (apply Nat.mod_upper_bound; lia).
    intros r [[<-|[<-|[]]]|[<-|[<-|[<-|[]]]]]; auto; lia.
Qed.
End Build.
