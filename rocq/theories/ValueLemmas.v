(** * Proofs about values and their comparison *)
From Coq Require Import List ZArith Arith Bool Lia.
From Verif Require Import Arith Vec Prim Cons Decomp Value ValueSpec.
Import ListNotations.

(** ** Comparable types are closed under fields and variants *)
Section Laws.
Lemma c_sym {T} (e : T -> T -> bool) c : comparable e c -> forall a b, e a b = e b a.
Proof.
  intros H a b. destruct (e a b) eqn:E, (e b a) eqn:E'; auto.
  - apply (eq_symmetric _ _ H) in E; congruence.
  - apply (eq_symmetric _ _ H) in E'; congruence.
Qed.
Lemma c_eq_dual {T} (e : T -> T -> bool) c : comparable e c -> forall a b, c a b = Some Eq <-> c b a = Some Eq.
Proof. intros H a b. now rewrite !(cmp_equal _ _ H), (c_sym _ _ H). Qed.
Lemma c_opp {T} (e : T -> T -> bool) c : comparable e c -> forall a b, c b a = option_map CompOpp (c a b).
Proof.
  intros H a b. pose proof (c_eq_dual _ _ H a b) as D. pose proof (cmp_dual _ _ H a b) as D1. pose proof (cmp_dual _ _ H b a) as D2.
  destruct (c a b) as [[]|] eqn:E; cbn [option_map CompOpp]; try tauto.
  destruct (c b a) as [[]|]; auto; exfalso; [destruct D as [_ D]|destruct D2 as [D2 _]|destruct D1 as [_ D1]]; intuition discriminate.
Qed.
Lemma c_cong_r {T} (e : T -> T -> bool) c : comparable e c -> forall a b x, e a b = true -> c x a = c x b.
Proof. intros H a b x E. rewrite (c_opp _ _ H a x), (c_opp _ _ H b x). now rewrite (cmp_congruent _ _ H a b x E). Qed.

Lemma c_ext {T} (e e' : T -> T -> bool) c c' : (forall a b, e a b = e' a b) -> (forall a b, c a b = c' a b) ->
  comparable e' c' -> comparable e c.
Proof.
  intros E C H. split; intros *; rewrite ?E, ?C.
  - apply (eq_symmetric _ _ H).
  - apply (eq_transitive _ _ H).
  - apply (cmp_equal _ _ H).
  - apply (cmp_dual _ _ H).
  - apply (cmp_transitive _ _ H).
  - apply (cmp_congruent _ _ H).
Qed.
Lemma c_pull {S T} (f : S -> T) e c : comparable e c -> comparable (fun a b => e (f a) (f b)) (fun a b => c (f a) (f b)).
Proof.
  intros H. split; intros *.
  - apply (eq_symmetric _ _ H).
  - apply (eq_transitive _ _ H).
  - apply (cmp_equal _ _ H).
  - apply (cmp_dual _ _ H).
  - apply (cmp_transitive _ _ H).
  - apply (cmp_congruent _ _ H).
Qed.

Lemma c_then {T} (e1 e2 : T -> T -> bool) c1 c2 : comparable e1 c1 -> comparable e2 c2 ->
  comparable (fun a b => e1 a b && e2 a b) (fun a b => then_cmp (c1 a b) (c2 a b)).
Proof.
  intros H1 H2. split; intros *; cbv beta; rewrite ?andb_true_iff.
  - intros [? ?]; split; [apply (eq_symmetric _ _ H1) | apply (eq_symmetric _ _ H2)]; auto.
  - intros [? ?] [? ?]; split; [apply (eq_transitive _ _ H1) with b | apply (eq_transitive _ _ H2) with b]; auto.
  - rewrite <- (cmp_equal _ _ H1), <- (cmp_equal _ _ H2). unfold then_cmp. destruct (c1 a b) as [[]|]; intuition discriminate.
  - rewrite (c_opp _ _ H1 a b), (c_opp _ _ H2 a b). unfold then_cmp. destruct (c1 a b) as [[]|], (c2 a b) as [[]|]; cbn; intuition discriminate.
  - intros Lab Lbc. unfold then_cmp in *.
    destruct (c1 a b) as [[]|] eqn:E1; try discriminate.
    + apply (cmp_equal _ _ H1) in E1. rewrite (cmp_congruent _ _ H1 a b c E1).
      destruct (c1 b c) as [[]|]; auto. now apply (cmp_transitive _ _ H2) with b.
    + destruct (c1 b c) as [[]|] eqn:E2; try discriminate.
      * apply (cmp_equal _ _ H1) in E2. rewrite <- (c_cong_r _ _ H1 b c a E2). now rewrite E1.
      * now rewrite (cmp_transitive _ _ H1 a b c E1 E2).
  - intros [E1 E2]. now rewrite (cmp_congruent _ _ H1 a b c E1), (cmp_congruent _ _ H2 a b c E2).
Qed.

(** the product order *)
Definition join (a b : option comparison) : option comparison :=
  match a, b with
  | Some Eq, x => x
  | x, Some Eq => x
  | Some Lt, Some Lt => Some Lt
  | Some Gt, Some Gt => Some Gt
  | _, _ => None
  end.
Lemma c_join {T} (e1 e2 : T -> T -> bool) c1 c2 : comparable e1 c1 -> comparable e2 c2 ->
  comparable (fun a b => e1 a b && e2 a b) (fun a b => join (c1 a b) (c2 a b)).
Proof.
  intros H1 H2. split; intros *; cbv beta; rewrite ?andb_true_iff.
  - intros [? ?]; split; [apply (eq_symmetric _ _ H1) | apply (eq_symmetric _ _ H2)]; auto.
  - intros [? ?] [? ?]; split; [apply (eq_transitive _ _ H1) with b | apply (eq_transitive _ _ H2) with b]; auto.
  - rewrite <- (cmp_equal _ _ H1), <- (cmp_equal _ _ H2). unfold join. destruct (c1 a b) as [[]|], (c2 a b) as [[]|]; intuition discriminate.
  - rewrite (c_opp _ _ H1 a b), (c_opp _ _ H2 a b). unfold join. destruct (c1 a b) as [[]|], (c2 a b) as [[]|]; cbn; intuition discriminate.
  - intros Lab Lbc.
    assert (G : forall (e : T -> T -> bool) cc, comparable e cc -> (cc a b = Some Eq \/ cc a b = Some Lt) -> (cc b c = Some Eq \/ cc b c = Some Lt) ->
      (cc a c = Some Eq /\ cc a b = Some Eq /\ cc b c = Some Eq) \/ cc a c = Some Lt).
    { intros e cc H [X|X] [Y|Y].
      - left. repeat split; auto. apply (cmp_equal _ _ H). apply (cmp_equal _ _ H) in X, Y. now apply (eq_transitive _ _ H) with b.
      - right. apply (cmp_equal _ _ H) in X. now rewrite (cmp_congruent _ _ H a b c X).
      - right. apply (cmp_equal _ _ H) in Y. now rewrite <- (c_cong_r _ _ H b c a Y).
      - right. now apply (cmp_transitive _ _ H) with b. }
    assert (J : forall x y, join x y = Some Lt -> (x = Some Eq \/ x = Some Lt) /\ (y = Some Eq \/ y = Some Lt) /\ ~ (x = Some Eq /\ y = Some Eq)).
    { intros [[]|] [[]|]; cbn; intros E; try discriminate; repeat split; auto; intros [? ?]; discriminate. }
    apply J in Lab as (A1 & A2 & A3). apply J in Lbc as (B1 & B2 & B3).
    destruct (G _ _ H1 A1 B1) as [(G1 & X1 & Y1)|G1], (G _ _ H2 A2 B2) as [(G2 & X2 & Y2)|G2]; rewrite G1, G2; try reflexivity. tauto.
  - intros [E1 E2]. now rewrite (cmp_congruent _ _ H1 a b c E1), (cmp_congruent _ _ H2 a b c E2).
Qed.
Lemma c_bool : comparable Bool.eqb bool_cmp.
Proof. split; intros *; repeat match goal with x : bool |- _ => destruct x end; cbn; intuition discriminate. Qed.
Lemma c_const {T} : comparable (fun _ _ : T => true) (fun _ _ => Some Eq).
Proof. split; intros *; cbn; intuition discriminate. Qed.

(** enums: comparable within each variant, ordered by the tag across variants *)
Lemma c_enum {T} (tag : T -> nat) (e : T -> T -> bool) c :
  (forall a b, tag a <> tag b -> e a b = false /\ c a b = Some (Nat.compare (tag a) (tag b))) ->
  (forall a b, e a b = true -> tag a = tag b -> e b a = true) ->
  (forall a b x, tag a = tag b -> tag b = tag x -> e a b = true -> e b x = true -> e a x = true) ->
  (forall a b, tag a = tag b -> (c a b = Some Eq <-> e a b = true)) ->
  (forall a b, tag a = tag b -> (c a b = Some Lt <-> c b a = Some Gt)) ->
  (forall a b x, tag a = tag b -> tag b = tag x -> c a b = Some Lt -> c b x = Some Lt -> c a x = Some Lt) ->
  (forall a b x, tag a = tag b -> tag b = tag x -> e a b = true -> c a x = c b x) ->
  comparable e c.
Proof.
  intros X Sy Tr Q D L C.
  assert (Te : forall a b, e a b = true -> tag a = tag b).
  { intros a b E. destruct (Nat.eq_dec (tag a) (tag b)); auto. destruct (X a b n) as [N _]. congruence. }
  split; intros *.
  - intros E. apply Sy; auto.
  - intros E1 E2. apply Tr with b; auto.
  - destruct (Nat.eq_dec (tag a) (tag b)) as [E|E]; [auto|]. destruct (X a b E) as [-> ->]. split; [|discriminate].
    intros [= H]. apply Nat.compare_eq in H. contradiction.
  - destruct (Nat.eq_dec (tag a) (tag b)) as [E|E]; [auto|]. destruct (X a b E) as [_ ->]. destruct (X b a (not_eq_sym E)) as [_ ->].
    rewrite (Nat.compare_antisym (tag a) (tag b)). destruct (Nat.compare (tag a) (tag b)); cbn; intuition discriminate.
  - intros L1 L2. destruct (Nat.eq_dec (tag a) (tag b)) as [E|E], (Nat.eq_dec (tag b) (tag c0)) as [E'|E'].
    + now apply L with b.
    + destruct (X a c0) as [_ ->]; [congruence|]. destruct (X b c0 E') as [_ H]. now rewrite E, <- H.
    + destruct (X a c0) as [_ ->]; [congruence|]. destruct (X a b E) as [_ H]. now rewrite <- E', <- H.
    + destruct (X a b E) as [_ H]. destruct (X b c0 E') as [_ H']. rewrite H in L1. rewrite H' in L2.
      injection L1 as L1. injection L2 as L2. apply Nat.compare_lt_iff in L1, L2. destruct (X a c0) as [_ ->]; [lia|]. f_equal. apply Nat.compare_lt_iff. lia.
  - intros E. pose proof (Te _ _ E) as T1. destruct (Nat.eq_dec (tag b) (tag c0)) as [E'|E'].
    + now apply C.
    + destruct (X a c0) as [_ ->]; [congruence|]. destruct (X b c0 E') as [_ ->]. now rewrite T1.
Qed.
Lemma c_variants {T} (tag : T -> nat) (e : T -> T -> bool) c (eN : nat -> T -> T -> bool) cN :
  (forall n, comparable (eN n) (cN n)) ->
  (forall a b, tag a = tag b -> e a b = eN (tag b) a b /\ c a b = cN (tag b) a b) ->
  (forall a b, tag a <> tag b -> e a b = false /\ c a b = Some (Nat.compare (tag a) (tag b))) ->
  comparable e c.
Proof.
  intros N I X. apply (c_enum tag); auto.
  - intros a b E H. destruct (I a b H) as [E1 _]. destruct (I b a (eq_sym H)) as [-> _]. rewrite E1 in E. rewrite H. now apply (eq_symmetric _ _ (N (tag b))).
  - intros a b x H1 H2. destruct (I a b H1) as [-> _]. destruct (I b x H2) as [-> _]. destruct (I a x (eq_trans H1 H2)) as [-> _]. rewrite H2. apply (eq_transitive _ _ (N (tag x))).
  - intros a b H. destruct (I a b H) as [-> ->]. apply (cmp_equal _ _ (N (tag b))).
  - intros a b H. destruct (I a b H) as [_ ->]. destruct (I b a (eq_sym H)) as [_ ->]. rewrite H. apply (cmp_dual _ _ (N (tag b))).
  - intros a b x H1 H2. destruct (I a b H1) as [_ ->]. destruct (I b x H2) as [_ ->]. destruct (I a x (eq_trans H1 H2)) as [_ ->]. rewrite H2. apply (cmp_transitive _ _ (N (tag x))).
  - intros a b x H1 H2. destruct (I a b H1) as [-> _]. destruct (I b x H2) as [_ ->]. destruct (I a x (eq_trans H1 H2)) as [_ ->]. rewrite H2. apply (cmp_congruent _ _ (N (tag x))).
Qed.
End Laws.

(** ** The comparisons of the crate *)
Section Cmp.
Context {F : Type} {A : Arith F}.
Hypothesis Hf : comparable feq (f64_cmp (F:=F)).
Variable h : heap F.

Lemma vec1_join (a b : F) : vec_cmp [a] [b] = f64_cmp a b.
Proof. cbn. now destruct (f64_cmp a b) as [[]|]. Qed.
Lemma vec2_join (a b c d : F) : vec_cmp [a; b] [c; d] = join (f64_cmp a c) (f64_cmp b d).
Proof. cbn. destruct (f64_cmp a c) as [[]|], (f64_cmp b d) as [[]|]; reflexivity. Qed.
Lemma vec3_join (a b c x y z : F) : vec_cmp [a; b; c] [x; y; z] = join (f64_cmp a x) (join (f64_cmp b y) (f64_cmp c z)).
Proof. cbn. destruct (f64_cmp a x) as [[]|], (f64_cmp b y) as [[]|], (f64_cmp c z) as [[]|]; reflexivity. Qed.

Lemma c_v1 {T} (f : T -> F) : comparable (fun a b => feq (f a) (f b)) (fun a b => vec_cmp [f a] [f b]).
Proof. apply c_ext with (2 := fun a b => vec1_join (f a) (f b)) (1 := fun a b => eq_refl). exact (c_pull f _ _ Hf). Qed.
Lemma c_v2 {T} (f g : T -> F) : comparable (fun a b => feq (f a) (f b) && feq (g a) (g b)) (fun a b => vec_cmp [f a; g a] [f b; g b]).
Proof.
  apply c_ext with (2 := fun a b => vec2_join (f a) (g a) (f b) (g b)) (1 := fun a b => eq_refl).
  exact (c_join _ _ _ _ (c_pull f _ _ Hf) (c_pull g _ _ Hf)).
Qed.
Lemma c_v3 {T} (f g k : T -> F) : comparable (fun a b => feq (f a) (f b) && feq (g a) (g b) && feq (k a) (k b))
  (fun a b => vec_cmp [f a; g a; k a] [f b; g b; k b]).
Proof.
  apply c_ext with (2 := fun a b => vec3_join (f a) (g a) (k a) (f b) (g b) (k b)) (1 := fun a b => eq_sym (andb_assoc _ _ _)).
  exact (c_join _ _ _ _ (c_pull f _ _ Hf) (c_join _ _ _ _ (c_pull g _ _ Hf) (c_pull k _ _ Hf))).
Qed.

Lemma c_point : comparable (point_eq (F:=F)) point_cmp.
Proof.
  eapply c_ext; [| |exact (c_then _ _ _ _ (c_v2 p_x p_y) (c_v2 p_gx p_gy))]; intros; cbv beta; [|reflexivity].
  unfold point_eq. now rewrite !andb_assoc.
Qed.
Lemma c_cpoint {T} (f : T -> loc) : comparable (fun a b => cell_eq_point h (f a) (f b)) (fun a b => cell_cmp_point h (f a) (f b)).
Proof. exact (c_pull (fun a => getP h (f a)) _ _ c_point). Qed.
Lemma c_line : comparable (line_eq h) (line_cmp h).
Proof.
  eapply c_ext; [| |exact (c_then _ _ _ _ (c_cpoint l_start) (c_then _ _ _ _ (c_cpoint l_end) c_const))]; intros; cbv beta; [|reflexivity].
  unfold line_eq, cell_eq_point. now rewrite andb_true_r.
Qed.
Lemma c_arc : comparable (arc_eq h) (arc_cmp h).
Proof.
  eapply c_ext; [| |exact (c_then _ _ _ _ (c_cpoint a_center) (c_then _ _ _ _ (c_v3 a_radius a_sa a_ea)
    (c_then _ _ _ _ (c_v3 a_gr a_gsa a_gea) (c_pull a_cw _ _ c_bool))))]; intros; cbv beta; [|reflexivity].
  unfold arc_eq, cell_eq_point. now rewrite !andb_assoc.
Qed.
Lemma c_circle : comparable (circle_eq h) (circle_cmp h).
Proof.
  eapply c_ext; [| |exact (c_then _ _ _ _ (c_cpoint c_center) (c_then _ _ _ _ (c_v1 c_radius) (c_v1 c_gr)))]; intros; cbv beta; [|reflexivity].
  unfold circle_eq, cell_eq_point. now rewrite !andb_assoc.
Qed.
Lemma c_cline {T} (f : T -> loc) : comparable (fun a b => cell_eq_line h (f a) (f b)) (fun a b => cell_cmp_line h (f a) (f b)).
Proof. exact (c_pull (fun a => getL h (f a)) _ _ c_line). Qed.
Lemma c_carc {T} (f : T -> loc) : comparable (fun a b => cell_eq_arc h (f a) (f b)) (fun a b => cell_cmp_arc h (f a) (f b)).
Proof. exact (c_pull (fun a => getA h (f a)) _ _ c_arc). Qed.

Let vp (v : primitive F) : point F := match v with VPoint p => p | _ => pt0 end.
Let vl (v : primitive F) : line := match v with VLine p => p | _ => line0 end.
Let va (v : primitive F) : arc F := match v with VArc p => p | _ => arc0 end.
Let vc (v : primitive F) : circle F := match v with VCircle p => p | _ => circ0 end.
Lemma c_primitive : comparable (primitive_eq h) (primitive_cmp h).
Proof.
  apply (c_variants primitive_tag) with
    (eN := fun n a b => match n with 0 => point_eq (vp a) (vp b) | 1 => line_eq h (vl a) (vl b) | 2 => arc_eq h (va a) (va b)
                                    | _ => circle_eq h (vc a) (vc b) end)
    (cN := fun n a b => match n with 0 => point_cmp (vp a) (vp b) | 1 => line_cmp h (vl a) (vl b) | 2 => arc_cmp h (va a) (va b)
                                    | _ => circle_cmp h (vc a) (vc b) end).
  - intros [|[|[|n]]]; [exact (c_pull vp _ _ c_point) | exact (c_pull vl _ _ c_line) | exact (c_pull va _ _ c_arc) | exact (c_pull vc _ _ c_circle)].
  - intros [] []; try discriminate; intros _; split; reflexivity.
  - intros [] [] E; try (exfalso; apply E; reflexivity); split; reflexivity.
Qed.

Let k1 (c : con F) : loc :=
  match c with
  | AngleBetweenPoints p _ _ _ | ArcEndPointCoincident p _ | ArcStartPointCoincident p _ | EuclideanDistance p _ _
  | HorizontalDistance p _ _ | VerticalDistance p _ _ | FixPoint p _ _ | EqualLength p _ | HorizontalLine p | VerticalLine p
  | ParallelLines p _ | PerpendicularLines p _ => p
  end.
Let k2 (c : con F) : loc :=
  match c with
  | AngleBetweenPoints _ p _ _ | ArcEndPointCoincident _ p | ArcStartPointCoincident _ p | EuclideanDistance _ p _
  | HorizontalDistance _ p _ | VerticalDistance _ p _ | EqualLength _ p | ParallelLines _ p | PerpendicularLines _ p => p
  | _ => 0
  end.
Let k3 (c : con F) : loc := match c with AngleBetweenPoints _ _ p _ => p | _ => 0 end.
Let kx (c : con F) : F :=
  match c with
  | AngleBetweenPoints _ _ _ x | EuclideanDistance _ _ x | HorizontalDistance _ _ x | VerticalDistance _ _ x | FixPoint _ x _ => x
  | _ => f0
  end.
Let ky (c : con F) : F := match c with FixPoint _ _ y => y | _ => f0 end.
Let epp (a b : con F) := cell_eq_point h (k1 a) (k1 b) && (cell_eq_point h (k2 a) (k2 b) && feq (kx a) (kx b)).
Let cpp (a b : con F) := then_cmp (cell_cmp_point h (k1 a) (k1 b)) (then_cmp (cell_cmp_point h (k2 a) (k2 b)) (f64_cmp (kx a) (kx b))).
Let eap (a b : con F) := cell_eq_arc h (k1 a) (k1 b) && cell_eq_point h (k2 a) (k2 b).
Let cap (a b : con F) := then_cmp (cell_cmp_arc h (k1 a) (k1 b)) (cell_cmp_point h (k2 a) (k2 b)).
Let ell (a b : con F) := cell_eq_line h (k1 a) (k1 b) && cell_eq_line h (k2 a) (k2 b).
Let cll (a b : con F) := then_cmp (cell_cmp_line h (k1 a) (k1 b)) (cell_cmp_line h (k2 a) (k2 b)).
Let el (a b : con F) := cell_eq_line h (k1 a) (k1 b).
Let cl (a b : con F) := cell_cmp_line h (k1 a) (k1 b).
Lemma c_con : comparable (con_eq h) (con_cmp h).
Proof.
  apply (c_variants con_tag) with
    (eN := fun n a b => match n with
       | 0 => cell_eq_point h (k1 a) (k1 b) && (cell_eq_point h (k2 a) (k2 b) && (cell_eq_point h (k3 a) (k3 b) && feq (kx a) (kx b)))
       | 1 | 2 => eap a b | 3 | 4 | 5 => epp a b | 6 => cell_eq_point h (k1 a) (k1 b) && (feq (kx a) (kx b) && feq (ky a) (ky b))
       | 8 | 9 => el a b | _ => ell a b end)
    (cN := fun n a b => match n with
       | 0 => then_cmp (cell_cmp_point h (k1 a) (k1 b)) (then_cmp (cell_cmp_point h (k2 a) (k2 b))
                (then_cmp (cell_cmp_point h (k3 a) (k3 b)) (f64_cmp (kx a) (kx b))))
       | 1 | 2 => cap a b | 3 | 4 | 5 => cpp a b | 6 => then_cmp (cell_cmp_point h (k1 a) (k1 b)) (vec_cmp [kx a; ky a] [kx b; ky b])
       | 8 | 9 => cl a b | _ => cll a b end).
  - assert (Eap : comparable eap cap) by exact (c_then _ _ _ _ (c_carc k1) (c_cpoint k2)).
    assert (Epp : comparable epp cpp) by exact (c_then _ _ _ _ (c_cpoint k1) (c_then _ _ _ _ (c_cpoint k2) (c_pull kx _ _ Hf))).
    assert (Ell : comparable ell cll) by exact (c_then _ _ _ _ (c_cline k1) (c_cline k2)).
    assert (El : comparable el cl) by exact (c_cline k1).
    intros [|[|[|[|[|[|[|[|[|[|n]]]]]]]]]]; try assumption.
    + exact (c_then _ _ _ _ (c_cpoint k1) (c_then _ _ _ _ (c_cpoint k2) (c_then _ _ _ _ (c_cpoint k3) (c_pull kx _ _ Hf)))).
    + exact (c_then _ _ _ _ (c_cpoint k1) (c_v2 kx ky)).
  - intros a b E; destruct a, b; try discriminate; cbn [con_tag con_eq con_cmp]; unfold eap, epp, ell, el, cap, cpp, cll, cl, k1, k2, k3, kx, ky; rewrite ?andb_assoc; split; reflexivity.
  - intros a b E; destruct a, b; try (exfalso; apply E; reflexivity); split; reflexivity.
Qed.
End Cmp.
