(** * Sketches entered constraint by constraint: whole sketches (C85) *)
From Coq Require Import List ZArith NArith Arith Bool Lia Reals Lra Permutation.
From Verif Require Import Arith Vec Prim Cons Sketch Solve Api Spec SolverSpec ArithR ExactSpec LinearSpec TreeSpec
  HeapLemmas SolveLemmas WfLemmas DataLemmas SpecLemmas ExactLemmas DerivLemmas GradLemmas LossLemmas MotionLemmas
  LinearLemmas GraphLemmas RateLemmas TreeLemmas.
Import ListNotations.
Local Open Scope R_scope.

Lemma mentions_deps (h : heap xR) c p : In p (mentions h c) -> In (PPoint p) (deps h c).
Proof.
  destruct c; simpl; intros H; repeat (destruct H as [<-|H]); try contradiction; auto 12.
Qed.
Lemma perm_sum u v : Permutation u v -> sumR u = sumR v.
Proof. induction 1; simpl; lra. Qed.
Lemma sum_zero {T} (f : T -> R) l : (forall x, In x l -> f x = 0) -> sumR (map f l) = 0.
Proof. induction l as [|a l IH]; simpl; auto. intros H. rewrite IH by auto. rewrite H by auto. ring. Qed.

(** ** zero gradient *)
Section Zero.
Variables (h : heap xR) (cs : list pcell).
Notation g := (cfg_of h).
Notation pr D k := (pairing h D (rowsR g h (getK h k))).
Lemma rest_zero k p rest v :
  (forall j q, In (j, q) rest -> In p (mentions h (getK h j)) -> apart (getK h k) (getK h j)) ->
  (acts_x (getK h k) = false -> fst v = 0) -> (acts_y (getK h k) = false -> snd v = 0) ->
  sumR (map (fun kp : loc * loc => pr (D1 p v) (fst kp)) rest) = 0.
Proof.
  intros Ap Hx Hy. apply sum_zero. intros [j q] Hj. apply elsewhere. cbn [fst]. intros I. destruct (Ap j q Hj I) as [A1 A2].
  cbn [fst]. split; intros E; [rewrite E, andb_true_r in A1 | rewrite E, andb_true_r in A2]; auto.
Qed.
Lemma zero_all_ok kps : entered h kps ->
  (forall k p, In (k, p) kps -> con_finite h (getK h k) /\ nondegenerate g h (getK h k) /\ forall q, In q (mentions h (getK h k)) -> In (PPoint q) cs) ->
  (forall p v, In (PPoint p) cs -> sumR (map (fun kp : loc * loc => pr (D1 p v) (fst kp)) kps) = 0) ->
  forall k, In k (map fst kps) -> satisfied g h (getK h k) \/ crosswise g h (getK h k).
Proof.
  induction kps as [|[k p] rest IH]; [intros _ _ _ k []|]. intros (C & Ap & En) Hk Z.
  destruct (Hk k p (or_introl eq_refl)) as (Hf & Nd & Hm).
  assert (Ip : In p (mentions h (getK h k))).
  { apply (count_occ_In Nat.eq_dec). rewrite C. lia. }
  assert (S : satisfied g h (getK h k) \/ crosswise g h (getK h k)).
  { apply (own h (getK h k) p Nd C). intros v Hx Hy. specialize (Z p v (Hm p Ip)). cbn [map fst sumR fold_right] in Z.
    fold (sumR (map (fun kp : loc * loc => pr (D1 p v) (fst kp)) rest)) in Z. rewrite (rest_zero k p rest v Ap Hx Hy) in Z. lra. }
  intros k' [<-|Hk']; [exact S|]. apply IH; auto.
  - intros j q Hj. apply (Hk j q). now right.
  - intros q v Hq. specialize (Z q v Hq). cbn [map fst sumR fold_right] in Z.
    assert (P : pr (D1 q v) k = 0); [|rewrite P, Rplus_0_l in Z; exact Z].
    destruct (fin_rows_ok h (getK h k) Hf (nondeg_eqlen _ _ _ Nd)) as (_ & _ & E & _).
    rewrite <- E by (now apply nondeg_active). apply C19_backward; auto; [now apply nondeg_eqlen|].
    destruct S as [S|S]; [now left|right]. destruct (getK h k); simpl in *; tauto.
Qed.
End Zero.

Section Sk.
Variables (h : heap xR) (s : sketch).
Hypothesis Vd : valid h s.
Hypothesis RC : refs_closed h s.
Hypothesis CF : all_con_finite h s.
Hypothesis ND : forall k, In k (s_cons s) -> nondegenerate (cfg_of h) h (getK h k).
Variables (gr : list R) (h1 : heap xR).
Hypothesis Eg : get_gradient s h = (h1, Val (map Fin gr)).
Notation cs := (cells s).
Notation g := (cfg_of h).
Notation pr D k := (pairing h D (rowsR g h (getK h k))).
Lemma sk_good : good s h.
Proof. intros k Hk. split; [now apply CF|]. apply nondeg_eqlen. now apply ND. Qed.
Lemma sk_grad : length gr = dims cs /\ forall D, off0 cs D -> dotL gr (flat_map (flatD D) cs) = sumR (map (fun k => pr D k) (s_cons s)).
Proof.
  destruct (gradient_ok s h (valid_nd _ _ Vd) (valid_cells _ _ Vd) sk_good) as (h' & E & L & P).
  rewrite Eg in E. injection E as -> Em. apply (f_equal (map vx)) in Em. rewrite !map_vx_Fin in Em. subst gr.
  split; [now rewrite L, n_dofs_dims|]. intros D HD. rewrite P by (rewrite flatD_length, n_dofs_dims; reflexivity).
  f_equal. apply map_ext_in. intros k Hk. rewrite D_of_flat by auto. f_equal.
  apply fin_rows_ok; auto; [apply nondeg_eqlen | apply nondeg_active]; auto.
Qed.
Lemma sk_pts k p : In k (s_cons s) -> In p (mentions h (getK h k)) -> In (PPoint p) cs.
Proof. intros Hk Hp. apply (deps_reg h s k Vd RC Hk). now apply mentions_deps. Qed.
Lemma in_fst {A B} (l : list (A * B)) a b : In (a, b) l -> In a (map fst l).
Proof. intros H. apply (in_map fst) in H. exact H. Qed.
Lemma sk_zero : one_by_one h s -> (forall x, In x gr -> x = 0) ->
  forall k, In k (s_cons s) -> satisfied g h (getK h k) \/ crosswise g h (getK h k).
Proof.
  intros (kps & Pm & En) Z k Hk. apply (zero_all_ok h cs kps En); [| |now apply (Permutation_in _ (Permutation_sym Pm))].
  - intros j q Hj. apply in_fst in Hj. apply (Permutation_in _ Pm) in Hj. split; [now apply CF|]. split; [now apply ND|].
    intros r. now apply sk_pts.
  - intros p v Hp. rewrite <- (map_map fst (fun k => pr (D1 p v) k)).
    rewrite (perm_sum _ _ (Permutation_map (fun k => pr (D1 p v) k) Pm)).
    rewrite <- (proj2 sk_grad) by (now apply D1_off). now apply dot_zero_l.
Qed.
End Sk.

(** ** a forest of forces *)
Section Forest.
Context {T : Type}.
Variables (F : T -> R) (sg : T -> loc -> R) (ow : T -> loc).
Fixpoint chain (l : list T) : Prop :=
  match l with
  | [] => True
  | k :: r => Rabs (sg k (ow k)) = 1 /\ (forall j, In j r -> sg j (ow k) = 0) /\
              (forall V, NoDup V -> ~ In (ow k) V -> sumR (map (fun p => Rabs (sg k p)) V) <= 1) /\ chain r
  end.
Lemma chain_own l k : chain l -> In k l -> Rabs (sg k (ow k)) = 1.
Proof. induction l as [|a l IH]; [intros _ []|]. intros (A & _ & _ & C) [<-|H]; auto. Qed.
Lemma chain_nodup l : chain l -> NoDup (map ow l).
Proof.
  induction l as [|a l IH]; simpl; [constructor|]. intros (A & B & _ & C). constructor; auto.
  intros H. apply in_map_iff in H as (j & E & Hj). pose proof (chain_own l j C Hj) as K. rewrite E, (B j Hj), Rabs_R0 in K. lra.
Qed.
Lemma sum_nonneg {A} (f : A -> R) l : (forall x, In x l -> 0 <= f x) -> 0 <= sumR (map f l).
Proof. induction l as [|a l IH]; intros H; [simpl; lra|]. pose proof (H a (or_introl eq_refl)). specialize (IH (fun x Hx => H x (or_intror Hx))). change (0 <= f a + sumR (map f l)). lra. Qed.
Lemma sum_plus {A} (f f' : A -> R) l : sumR (map (fun x => f x + f' x) l) = sumR (map f l) + sumR (map f' l).
Proof. induction l as [|a l IH]; simpl; [ring|]. rewrite IH. ring. Qed.
Lemma sum_scal {A} c (f : A -> R) l : sumR (map (fun x => f x * c) l) = sumR (map f l) * c.
Proof. induction l as [|a l IH]; simpl; [ring|]. rewrite IH. ring. Qed.
Lemma forest l : chain l -> forall G, (forall p, In p (map ow l) -> Rabs (sumR (map (fun j => sg j p * F j) l)) <= G p) ->
  forall k, In k l -> Rabs (F k) <= sumR (map (fun j => G (ow j)) l).
Proof.
  induction l as [|a l IH]; [intros _ G _ k []|]. intros Hc G HG. pose proof (chain_nodup _ Hc) as Nd.
  destruct Hc as (A & B & M & C). cbn [map] in Nd. apply NoDup_cons_iff in Nd as [Na Nl].
  assert (Ga : Rabs (F a) <= G (ow a)).
  { specialize (HG (ow a) (or_introl eq_refl)). cbn [map sumR fold_right] in HG. fold (sumR (map (fun j => sg j (ow a) * F j) l)) in HG.
    rewrite (sum_zero (fun j => sg j (ow a) * F j)) in HG by (intros j Hj; rewrite B by auto; ring).
    rewrite Rplus_0_r, Rabs_mult, A in HG. lra. }
  assert (Pl : 0 <= sumR (map (fun j => G (ow j)) l)).
  { apply sum_nonneg. intros j Hj. eapply Rle_trans; [apply Rabs_pos|]. apply HG. right. now apply in_map. }
  cbn [map sumR fold_right]. fold (sumR (map (fun j => G (ow j)) l)).
  intros k [<-|Hk]; [lra|].
  specialize (IH C (fun p => G p + Rabs (sg a p) * Rabs (F a))). eapply Rle_trans; [apply IH; [|exact Hk]|].
  - intros p Hp. specialize (HG p (or_intror Hp)). cbn [map sumR fold_right] in HG. fold (sumR (map (fun j => sg j p * F j) l)) in HG.
    rewrite <- Rabs_mult. set (S := sumR (map (fun j => sg j p * F j) l)) in *. replace S with (sg a p * F a + S + - (sg a p * F a)) by ring.
    eapply Rle_trans; [apply Rabs_triang|]. rewrite Rabs_Ropp. lra.
  - rewrite sum_plus, sum_scal. specialize (M (map ow l) Nl Na). rewrite map_map in M.
    assert (Q : sumR (map (fun x => Rabs (sg a (ow x))) l) * Rabs (F a) <= 1 * Rabs (F a)) by (apply Rmult_le_compat_r; [apply Rabs_pos|exact M]). lra.
Qed.
End Forest.

(** ** binary constraints as forces *)
Definition ind (a p : loc) : R := if Nat.eqb a p then 1 else 0.
Definition sgn {F} {A : Arith F} (h : heap F) (c : con F) (p : loc) : R :=
  match mentions h c with [a; b] => ind a p - ind b p | [a] => ind a p | _ => 0 end.
Definition force (g : cfg) (h : heap xR) (c : con xR) : R * R :=
  match c with
  | ArcEndPointCoincident a p => (fst (end_pt g h a) - cx g p, snd (end_pt g h a) - cy g p)
  | ArcStartPointCoincident a p => (fst (start_pt g h a) - cx g p, snd (start_pt g h a) - cy g p)
  | EuclideanDistance p1 p2 d => let u := from_to g p2 p1 in ((len u - vx d) * (fst u / len u), (len u - vx d) * (snd u / len u))
  | HorizontalDistance p1 p2 d => (- (cx g p2 - cx g p1 - vx d), 0)
  | VerticalDistance p1 p2 d => (0, - (cy g p2 - cy g p1 - vx d))
  | FixPoint p x y => (cx g p - vx x, cy g p - vx y)
  | HorizontalLine l => (0, - snd (dirR g h l))
  | VerticalLine l => (- fst (dirR g h l), 0)
  | _ => (0, 0)
  end.
Lemma force_pair g h c p v : binary c = true ->
  pairing h (D1 p v) (rowsR g h c) = sgn h c p * (fst v * fst (force g h c) + snd v * snd (force g h c)).
Proof.
  intros B. destruct v as [v1 v2]. destruct c; try discriminate B; cbn [rowsR force]; unfold sgn, ind; cbn [mentions fst snd]; pairs; eqbs; ring.
Qed.
Lemma force_res g h c : binary c = true -> nondegenerate g h c ->
  residual2 g h c = sq (fst (force g h c)) + sq (snd (force g h c)).
Proof.
  intros B N. destruct c; try discriminate B; cbn [residual2 force fst snd nondegenerate] in *; unfold sq; try ring.
  pose proof tiny_pos. set (u := from_to g p2 p1) in *. assert (Lu : 0 < len u) by lra.
  transitivity ((len u - vx desired) * (len u - vx desired) * ((fst u * fst u + snd u * snd u) / (len u * len u))).
  - rewrite <- len_sq. field. lra.
  - field. lra.
Qed.
Lemma force_x g h c : acts_x c = false -> fst (force g h c) = 0.
Proof. destruct c; simpl; try discriminate; auto. Qed.
Lemma force_y g h c : acts_y c = false -> snd (force g h c) = 0.
Proof. destruct c; simpl; try discriminate; auto. Qed.
Lemma ind_sum a V : NoDup V -> sumR (map (ind a) V) <= 1.
Proof.
  induction 1 as [|b V Hb N IH]; [simpl; lra|]. change (ind a b + sumR (map (ind a) V) <= 1). unfold ind at 1. destruct (Nat.eqb_spec a b) as [->|]; [|lra].
  assert (Z : sumR (map (ind b) V) = 0); [|rewrite Z; lra].
  apply sum_zero. intros x Hx. unfold ind. destruct (Nat.eqb_spec b x); [congruence|auto].
Qed.
Lemma sgn_out (h : heap xR) c p : binary c = true -> ~ In p (mentions h c) -> sgn h c p = 0.
Proof.
  intros B N. unfold sgn. destruct c; try discriminate B; cbn [mentions In] in *; unfold ind; eqbs; try (exfalso; tauto); ring.
Qed.
Lemma sgn_own (h : heap xR) c p : binary c = true -> count_occ Nat.eq_dec (mentions h c) p = 1%nat -> Rabs (sgn h c p) = 1.
Proof.
  intros B. unfold sgn.
  assert (K2 : forall a b, count_occ Nat.eq_dec [a; b] p = 1%nat -> Rabs (ind a p - ind b p) = 1).
  { intros a b. cbn [count_occ]. unfold ind. destruct (Nat.eq_dec a p), (Nat.eq_dec b p); try discriminate; intros _; eqbs; try congruence;
    [rewrite Rminus_0_r; apply Rabs_R1 | rewrite Rminus_0_l, Rabs_Ropp; apply Rabs_R1]. }
  destruct c; try discriminate B; cbn [mentions]; auto.
  cbn [count_occ]. unfold ind. destruct (Nat.eq_dec p0 p); try discriminate; intros _; eqbs; try congruence; apply Rabs_R1.
Qed.
Lemma sgn_mass (h : heap xR) c p V : binary c = true -> count_occ Nat.eq_dec (mentions h c) p = 1%nat ->
  NoDup V -> ~ In p V -> sumR (map (fun q => Rabs (sgn h c q)) V) <= 1.
Proof.
  intros B Cn N O. unfold sgn.
  assert (K2 : forall a b, count_occ Nat.eq_dec [a; b] p = 1%nat -> sumR (map (fun q => Rabs (ind a q - ind b q)) V) <= 1).
  { intros a b. cbn [count_occ]. destruct (Nat.eq_dec a p) as [->|], (Nat.eq_dec b p) as [->|]; try discriminate; intros _.
    - eapply Rle_trans; [|apply (ind_sum b V N)]. apply sum_le. intros q Hq. unfold ind. eqbs; subst; try contradiction; unfold Rabs; destruct Rcase_abs; lra.
    - eapply Rle_trans; [|apply (ind_sum a V N)]. apply sum_le. intros q Hq. unfold ind. eqbs; subst; try contradiction; unfold Rabs; destruct Rcase_abs; lra. }
  destruct c; try discriminate B; cbn [mentions] in *; auto.
  eapply Rle_trans; [|apply (ind_sum p0 V N)]. apply sum_le. intros q Hq. unfold ind. eqbs; unfold Rabs; destruct Rcase_abs; lra.
Qed.

Section Axis.
Variables (h : heap xR) (acts : con xR -> bool).
Hypothesis Hacts : forall c d, apart c d -> acts c && acts d = false.
Notation onax kps := (filter (fun kp : loc * loc => acts (getK h (fst kp))) kps).
Lemma axis_chain kps : entered h kps -> (forall kp, In kp kps -> binary (getK h (fst kp)) = true) ->
  chain (fun kp : loc * loc => sgn h (getK h (fst kp))) snd (onax kps).
Proof.
  induction kps as [|[k p] rest IH]; intros En B; [exact I|]. destruct En as (C & Ap & En).
  assert (Bk := B (k, p) (or_introl eq_refl)). cbn [fst] in Bk. specialize (IH En (fun kp Hk => B kp (or_intror Hk))).
  cbn [filter fst]. destruct (acts (getK h k)) eqn:Ak; [|exact IH]. cbn [chain fst snd]. split; [now apply sgn_own|]. split.
  - intros [j q] Hj. apply filter_In in Hj as [Hj Aj]. cbn [fst] in *. apply sgn_out; [apply (B (j, q)); now right|].
    intros I. specialize (Hacts _ _ (Ap j q Hj I)). rewrite Ak, Aj in Hacts. discriminate.
  - split; [|exact IH]. intros V N O. exact (sgn_mass h _ p V Bk C N O).
Qed.
End Axis.

Lemma sum_square {A} (f : A -> R) l : sq (sumR (map f l)) <= INR (length l) * sumR (map (fun x => sq (f x)) l).
Proof.
  induction l as [|a l IH]; [simpl; unfold sq; lra|]. cbn [map sumR fold_right length]. fold (sumR (map f l)) (sumR (map (fun x => sq (f x)) l)).
  rewrite S_INR. set (S := sumR (map f l)) in *. set (Q := sumR (map (fun x => sq (f x)) l)) in *. pose proof (pos_INR (length l)) as P.
  set (n := INR (length l)) in *. unfold sq in *. set (x := f a).
  destruct (Req_dec n 0) as [E|E].
  - assert (l = []) as ->. { destruct l; auto. unfold n in E. cbn [length] in E. rewrite S_INR in E. pose proof (pos_INR (length l)). lra. }
    unfold S, Q. simpl. nra.
  - assert (0 < n) by lra. assert (2 * x * S <= n * (x * x) + S * S / n).
    { apply (Rmult_le_reg_r n); auto. replace ((n * (x * x) + S * S / n) * n) with (n * x * (n * x) + S * S) by (field; lra).
      assert (0 <= (n * x - S) * (n * x - S)) by apply Rle_0_sqr. nra. }
    assert (S * S / n <= Q). { apply (Rmult_le_reg_r n); auto. unfold Rdiv. rewrite Rmult_assoc, Rinv_l by lra. lra. }
    nra.
Qed.
Lemma sum_sub (f : loc -> R) : (forall x, 0 <= f x) -> forall l V, NoDup l -> incl l V -> sumR (map f l) <= sumR (map f V).
Proof.
  intros Pf. induction l as [|a l IH]; intros V N I.
  - simpl. apply sum_nonneg. auto.
  - apply NoDup_cons_iff in N as [Na Nl]. destruct (in_split a V (I a (or_introl eq_refl))) as (V1 & V2 & ->).
    assert (I' : incl l (V1 ++ V2)).
    { intros x Hx. assert (x <> a) by congruence. specialize (I x (or_intror Hx)). rewrite in_app_iff in *. simpl in I. destruct I as [I|[I|I]]; auto. congruence. }
    specialize (IH _ Nl I'). assert (E : sumR (map f (V1 ++ a :: V2)) = f a + sumR (map f (V1 ++ V2))).
    { rewrite (perm_sum _ (f a :: map f (V1 ++ V2))); [reflexivity|]. change (f a :: map f (V1 ++ V2)) with (map f (a :: V1 ++ V2)). apply Permutation_map. apply Permutation_sym, Permutation_middle. }
    rewrite E. change (f a + sumR (map f l) <= f a + sumR (map f (V1 ++ V2))). lra.
Qed.
Lemma sq_abs x : sq (Rabs x) = sq x.
Proof. unfold sq. rewrite <- Rabs_mult. apply Rabs_pos_eq. apply Rle_0_sqr. Qed.

Section PL.
Variables (h : heap xR) (s : sketch).
Hypothesis Vd : valid h s.
Hypothesis RC : refs_closed h s.
Hypothesis CF : all_con_finite h s.
Hypothesis ND : forall k, In k (s_cons s) -> nondegenerate (cfg_of h) h (getK h k).
Hypothesis BN : forall k, In k (s_cons s) -> binary (getK h k) = true.
Variables (gr : list R) (h1 : heap xR).
Hypothesis Eg : get_gradient s h = (h1, Val (map Fin gr)).
Variable kps : list (loc * loc).
Hypothesis Pm : Permutation (map fst kps) (s_cons s).
Hypothesis En : entered h kps.
Notation cs := (cells s).
Notation g := (cfg_of h).
Notation m := (INR (length (s_cons s))).
Notation gx := (cx (D_of (cells s) gr)).
Notation gy := (cy (D_of (cells s) gr)).
Lemma kps_in kp : In kp kps -> In (fst kp) (s_cons s).
Proof. intros H. apply (Permutation_in _ Pm). now apply in_map. Qed.
Lemma kps_len : length kps = length (s_cons s).
Proof. rewrite <- (Permutation_length Pm). now rewrite map_length. Qed.
Lemma one_coord p v : In (PPoint p) cs -> dotL gr (flat_map (flatD (D1 p v)) cs) = fst v * gx p + snd v * gy p.
Proof.
  intros Hp. destruct (sk_grad h s Vd CF ND gr h1 Eg) as [L _].
  set (wx := fun l => if Nat.eqb l p then fst v else 0). set (wy := fun l => if Nat.eqb l p then snd v else 0).
  replace (flat_map (flatD (D1 p v)) cs) with (pv s wx wy).
  2: { unfold pv, cellvec. apply flat_map_ext. intros []; reflexivity. }
  rewrite (pv_dot s (valid_nd _ _ Vd)) by auto.
  assert (K : forall (f : loc -> R) c V, NoDup V -> In p V -> sumR (map (fun l : nat => f l * (if Nat.eqb l p then c else 0)) V) = c * f p).
  { intros f c. induction 1 as [|b V Hb N IH]; [intros []|]. intros [->|Hi]; cbn [map sumR fold_right]; fold (sumR (map (fun l : nat => f l * (if Nat.eqb l p then c else 0)) V)).
    - rewrite Nat.eqb_refl. rewrite sum_zero; [ring|]. intros x Hx. destruct (Nat.eqb_spec x p); [subst; contradiction|ring].
    - rewrite IH by auto. destruct (Nat.eqb_spec b p); [subst; contradiction|ring]. }
  unfold wx, wy. rewrite !K; auto using points_nodup, (valid_nd _ _ Vd); now apply points_in.
Qed.
Lemma balance p v : In (PPoint p) cs ->
  sumR (map (fun kp : loc * loc => sgn h (getK h (fst kp)) p * (fst v * fst (force g h (getK h (fst kp))) + snd v * snd (force g h (getK h (fst kp))))) kps)
  = fst v * gx p + snd v * gy p.
Proof.
  intros Hp. rewrite <- one_coord by auto. rewrite (proj2 (sk_grad h s Vd CF ND gr h1 Eg)) by (now apply D1_off).
  rewrite <- (perm_sum _ _ (Permutation_map _ Pm)). rewrite map_map. f_equal. apply map_ext_in. intros kp Hk.
  symmetry. apply force_pair. apply BN. now apply kps_in.
Qed.
Lemma sum_filter {A} (f : A -> R) (b : A -> bool) l : (forall x, In x l -> b x = false -> f x = 0) -> sumR (map f (filter b l)) = sumR (map f l).
Proof.
  induction l as [|a l IH]; intros H; [reflexivity|]. simpl. specialize (IH (fun x Hx => H x (or_intror Hx))).
  destruct (b a) eqn:E; simpl; unfold sumR in *; rewrite IH; auto. rewrite (H a (or_introl eq_refl) E). ring.
Qed.
Lemma axis_bound (acts : con xR -> bool) (fc : con xR -> R) (gc : loc -> R) :
  (forall c d, apart c d -> acts c && acts d = false) -> (forall c, acts c = false -> fc c = 0) ->
  (forall p, In (PPoint p) cs -> sumR (map (fun kp : loc * loc => sgn h (getK h (fst kp)) p * fc (getK h (fst kp))) kps) = gc p) ->
  sumR (map (fun kp : loc * loc => sq (fc (getK h (fst kp)))) kps) <= m * m * sumR (map (fun p => sq (gc p)) (points s)).
Proof.
  intros Ha Hf Hg. set (onax := filter (fun kp : loc * loc => acts (getK h (fst kp))) kps).
  assert (Ch := axis_chain h acts Ha kps En (fun kp Hk => BN _ (kps_in kp Hk))). fold onax in Ch.
  assert (Io : forall kp, In kp onax -> In kp kps) by (intros kp Hk; now apply filter_In in Hk as [Hk _]).
  assert (Ip : forall kp, In kp kps -> In (PPoint (snd kp)) cs).
  { intros [k p] Hk. apply (sk_pts h s Vd RC k); [exact (kps_in _ Hk)|]. clear -En Hk. induction kps as [|[k' p'] l IH]; [destruct Hk|].
    destruct En as (C & _ & E). destruct Hk as [Hk|Hk]; [|auto]. injection Hk as -> ->. apply (count_occ_In Nat.eq_dec). cbn [snd]. rewrite C. lia. }
  pose proof (forest (fun kp => fc (getK h (fst kp))) _ _ onax Ch (fun p => Rabs (gc p))) as Fo.
  set (S := sumR (map (fun kp : loc * loc => Rabs (gc (snd kp))) onax)) in *.
  assert (B : forall kp, In kp kps -> sq (fc (getK h (fst kp))) <= sq S).
  { intros kp Hk. destruct (acts (getK h (fst kp))) eqn:E.
    - rewrite <- sq_abs. assert (Q : Rabs (fc (getK h (fst kp))) <= S).
      { apply Fo; [|now apply filter_In]. intros p Hp. apply in_map_iff in Hp as (kq & <- & Hq). rewrite <- Hg by auto.
        right. f_equal. unfold onax. apply (sum_filter (fun kp0 : loc * loc => sgn h (getK h (fst kp0)) (snd kq) * fc (getK h (fst kp0)))).
        intros x _ Ex. rewrite (Hf _ Ex). ring. }
      pose proof (Rabs_pos (fc (getK h (fst kp)))). unfold sq. apply Rmult_le_compat; auto.
    - rewrite (Hf _ E). unfold sq. rewrite Rmult_0_l. apply Rle_0_sqr. }
  assert (A1 : sumR (map (fun kp : loc * loc => sq (fc (getK h (fst kp)))) kps) <= m * sq S).
  { rewrite <- kps_len, <- (sum_const (sq S) kps). now apply sum_le. }
  assert (A2 : sq S <= m * sumR (map (fun p => sq (gc p)) (points s))).
  { eapply Rle_trans; [apply sum_square|]. apply Rmult_le_compat.
    - apply pos_INR.
    - apply sum_nonneg. intros. apply sq_nonneg.
    - apply le_INR. rewrite <- kps_len. unfold onax. clear. induction kps as [|a l IH]; simpl; [lia|]. destruct (acts _); simpl; lia.
    - rewrite (map_ext (fun x => sq (Rabs (gc (snd x)))) (fun x : loc * loc => (fun p => sq (gc p)) (snd x))) by (intros; apply sq_abs).
      rewrite <- (map_map snd (fun p => sq (gc p))). apply sum_sub; [intros; apply sq_nonneg|exact (chain_nodup _ _ _ Ch)|].
      intros p Hp. apply in_map_iff in Hp as (kq & <- & Hq). apply points_in. auto. }
  pose proof (pos_INR (length (s_cons s))) as P0. rewrite Rmult_assoc.
  apply (Rmult_le_compat_l m) in A2; [lra|exact P0].
Qed.
Lemma pts_le : sumR (map (fun p : nat => sq (gx p)) (points s)) + sumR (map (fun p : nat => sq (gy p)) (points s)) <= dotL gr gr.
Proof.
  destruct (sk_grad h s Vd CF ND gr h1 Eg) as [L _]. destruct (D_off s gr) as [Ox Oy]. set (d := pv s gx gy).
  assert (Ld : length d = dims cs) by apply pv_length.
  assert (E1 : dotL gr d = sumR (map (fun p : nat => sq (gx p)) (points s)) + sumR (map (fun p : nat => sq (gy p)) (points s))).
  { unfold d. rewrite (pv_dot s (valid_nd _ _ Vd)) by auto. reflexivity. }
  assert (E2 : dotL d d = sumR (map (fun p : nat => sq (gx p)) (points s)) + sumR (map (fun p : nat => sq (gy p)) (points s))).
  { unfold d at 2. rewrite (pv_dot s (valid_nd _ _ Vd)) by auto.
    f_equal; f_equal; apply map_ext; intros p; destruct (D_pv s _ _ Ox Oy p) as [X Y]; fold d in X, Y; [rewrite X|rewrite Y]; reflexivity. }
  assert (C := dotL_cauchy gr d). rewrite E1, E2, L, Ld in C. specialize (C eq_refl).
  set (A := sumR _ + sumR _) in *.
  assert (0 <= A). { rewrite <- E2. apply dotL_sq_nonneg. }
  destruct (Req_dec A 0) as [Z|Z]; [rewrite Z; apply dotL_sq_nonneg|]. apply (Rmult_le_reg_r A); lra.
Qed.
Lemma sk_loss l : get_loss h s = Fin l -> 2 * l <= m * m * dotL gr gr.
Proof.
  intros El. rewrite (get_loss_R h s CF) in El. injection El as <-.
  rewrite <- (perm_sum _ _ (Permutation_map (fun k => lossR g h (getK h k)) Pm)), map_map.
  assert (E : 2 * sumR (map (fun x : loc * loc => lossR g h (getK h (fst x))) kps) =
    sumR (map (fun kp : loc * loc => sq (fst (force g h (getK h (fst kp))))) kps) + sumR (map (fun kp : loc * loc => sq (snd (force g h (getK h (fst kp))))) kps)).
  { rewrite <- sum_plus, Rmult_comm, <- sum_scal. f_equal. apply map_ext_in. intros kp Hk. unfold lossR.
    rewrite <- force_res; [field|apply BN, kps_in, Hk|apply ND, kps_in, Hk]. }
  rewrite E.
  pose proof (axis_bound acts_x (fun c => fst (force g h c)) gx (fun c d H => proj1 H) (force_x g h)) as Bx.
  pose proof (axis_bound acts_y (fun c => snd (force g h c)) gy (fun c d H => proj2 H) (force_y g h)) as By.
  specialize (Bx ltac:(intros p Hp; pose proof (balance p (1, 0) Hp) as Q; cbn [fst snd] in Q; transitivity (1 * gx p + 0 * gy p); [rewrite <- Q; f_equal; apply map_ext; intros; ring|ring])).
  specialize (By ltac:(intros p Hp; pose proof (balance p (0, 1) Hp) as Q; cbn [fst snd] in Q; transitivity (0 * gx p + 1 * gy p); [rewrite <- Q; f_equal; apply map_ext; intros; ring|ring])).
  pose proof pts_le as P. pose proof (pos_INR (length (s_cons s))) as P0.
  assert (0 <= m * m) by nra. apply (Rmult_le_compat_l (m * m)) in P; auto. eapply Rle_trans; [apply Rplus_le_compat; [exact Bx|exact By]|]. rewrite <- Rmult_plus_distr_l. exact P.
Qed.
End PL.
