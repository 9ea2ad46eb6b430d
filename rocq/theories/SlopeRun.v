(** * The gradient in binary64 and where the solvers stop (proofs for C86) *)
From Coq Require Import List ZArith NArith Arith Bool Reals Lra Lia Permutation Floats.SpecFloat.
From Flocq Require Import Core.Core IEEE754.BinarySingleNaN.
From Verif Require Import Arith ArithR ArithF Vec Prim Cons Sketch Solve Api Spec SerdeSpec HeapLemmas WfLemmas DataLemmas SpecLemmas PureLemmas SolverSpec SolveLemmas SearchLemmas StepLemmas FloatLemmas FloatSpec FloatBound
  ExactLemmas ExactSpec DerivLemmas GradLemmas LossLemmas CircleLemmas LinearSpec LinearLemmas LinearForms SolverForms RateForms TreeSpec TreeRun
  RoundSpec RoundTurn RoundAngle RoundWalk RoundArea AccuracySpec AccuracyLemmas AccuracyForms SlopeSpec SlopeLemmas SlopeForms SlopeNorm.
From Verif Require ExactDecomp.
Import ListNotations.
Local Open Scope R_scope.

(** ** What reading the numbers as real numbers leaves alone *)
Section Same.
Variable L : libm.
#[local] Instance AFs : Arith spec_float := ArithF L.
Variables (h : heap spec_float) (s : sketch).
Let H := exact_heap h.
Lemma cell_same c : cell_ok H c <-> cell_ok h c.
Proof. unfold H, exact_heap. destruct c; cbn [cell_ok h_pts h_lines h_arcs h_circs]; rewrite ?map_length; tauto. Qed.
Lemma cells_same l : List.Forall (cell_ok H) l <-> List.Forall (cell_ok h) l.
Proof. rewrite !Forall_forall. split; intros Q x Hx; apply cell_same; auto. Qed.
Lemma con_refs_same c : con_refs (exact_con c) = con_refs c. Proof. now destruct c. Qed.
Lemma valid_same : valid h s -> valid H s.
Proof.
  intros [V1 V2 V3 (A1 & A2 & A3 & A4) V5 V6]. split; auto.
  - unfold H. split; [|split; [|split]].
    + intros l Hl. rewrite (refs_ex L). apply cells_same. apply A1. exact Hl.
    + intros l Hl. rewrite (refs_ex L). apply cells_same. apply A2. unfold exact_heap in Hl. cbn [h_arcs] in Hl. now rewrite map_length in Hl.
    + intros l Hl. rewrite (refs_ex L). apply cells_same. apply A3. unfold exact_heap in Hl. cbn [h_circs] in Hl. now rewrite map_length in Hl.
    + intros k Hk. unfold con_ok. rewrite (getK_ex h), con_refs_same. apply cells_same. apply A4. unfold exact_heap in Hk. cbn [h_cons] in Hk. now rewrite map_length in Hk.
  - intros c Hc. apply cell_same. auto.
  - intros k Hk. unfold H, exact_heap. cbn [h_cons]. rewrite map_length. auto.
Qed.
Lemma closed_same : refs_closed h s -> refs_closed H s.
Proof.
  intros [C1 C2]. split.
  - intros c r Hc Hr. unfold H in Hr. rewrite (refs_ex L) in Hr. eauto.
  - intros k r Hk Hr. unfold H in Hr. rewrite (getK_ex h), con_refs_same in Hr. eauto.
Qed.
Lemma binary_same k : binary (getK H k) = binary (getK h k).
Proof. unfold H. rewrite (getK_ex h). now destruct (getK h k). Qed.
Lemma linear_same k : linear (getK H k) = linear (getK h k).
Proof. unfold H. rewrite (getK_ex h). now destruct (getK h k). Qed.
Lemma mentions_same k : mentions H (getK H k) = mentions h (getK h k).
Proof. unfold H. rewrite (getK_ex h). destruct (getK h k); try reflexivity; cbn [exact_con mentions]; now rewrite (getA_ex L h). Qed.
Lemma acts_same k : acts_x (getK H k) = acts_x (getK h k) /\ acts_y (getK H k) = acts_y (getK h k).
Proof. unfold H. rewrite (getK_ex h). now destruct (getK h k). Qed.
Lemma entered_same kps : entered h kps -> entered H kps.
Proof.
  induction kps as [|[k p] kps IH]; [auto|]. intros (C1 & C2 & C3). split; [rewrite mentions_same; exact C1|]. split; [|now apply IH].
  intros j q Hj Hp. rewrite mentions_same in Hp. specialize (C2 j q Hj Hp). unfold apart in *. destruct (acts_same k) as [-> ->], (acts_same j) as [-> ->]. exact C2.
Qed.
Lemma by_one_same : one_by_one h s -> one_by_one H s.
Proof. intros (kps & Pm & En). exists kps. split; auto. now apply entered_same. Qed.
Lemma ex_fin x : fin64 x = true -> ffin (exact64 x) = true. Proof. destruct x as [?|?| |[] ? ?]; try discriminate; reflexivity. Qed.
Lemma data_ex c : prim_data H c = map exact64 (prim_data h c).
Proof. unfold H. destruct c; cbn [prim_data]; rewrite ?(getP_ex L h), ?(getA_ex L h), ?(getC_ex L h); reflexivity. Qed.
Lemma data_same : finite_data h s -> finite_data H s.
Proof. intros FD c Hc. specialize (FD c Hc). rewrite data_ex. apply Forall_map. revert FD. apply Forall_impl. intros x. apply ex_fin. Qed.
Lemma dofs_same : get_n_dofs H s = get_n_dofs h s. Proof. now rewrite !n_dofs_dims. Qed.
End Same.

(** ** The same sketch after a solver has run *)
Section Run.
Context {F : Type} {A : Arith F}.
Variables (h h' : heap F) (s : sketch).
Hypothesis S : struct_eq h h'.
Lemma getK_run k : getK h' k = getK h k. Proof. destruct S as (_ & E & _). unfold getK. now rewrite E. Qed.
Lemma getL_run l : getL h' l = getL h l. Proof. destruct S as (E & _). unfold getL. now rewrite E. Qed.
Lemma refs_run c : prim_refs h' c = prim_refs h c.
Proof. destruct S as (_ & _ & _ & _ & _ & Ea & Ec). destruct c; cbn [prim_refs]; rewrite ?getL_run, ?(proj1 (Ea _)), ?Ec; reflexivity. Qed.
Lemma closed_run : refs_closed h s -> refs_closed h' s.
Proof. intros [C1 C2]. split; [intros c r Hc; rewrite refs_run; eauto | intros k r Hk; rewrite getK_run; eauto]. Qed.
Lemma mentions_run c : mentions h' c = mentions h c.
Proof. destruct S as (_ & _ & _ & _ & _ & Ea & Ec). destruct c; cbn [mentions]; rewrite ?getL_run, ?(proj1 (Ea _)); reflexivity. Qed.
Lemma by_one_run : one_by_one h s -> one_by_one h' s.
Proof.
  intros (kps & Pm & En). exists kps. split; auto. clear Pm. induction kps as [|[k p] kps IH]; [auto|]. destruct En as (C1 & C2 & C3).
  split; [rewrite getK_run, mentions_run; exact C1|]. split; [|auto]. intros j q Hj. rewrite !getK_run, mentions_run. eauto.
Qed.
End Run.

(** ** Norms of exact vectors *)
Lemma dot_near : forall (u v : list R) c, 0 <= c -> Forall2 (fun x a => Rabs (x - a) <= c) u v -> dotL (minusL v u) (minusL v u) <= INR (length v) * (c * c).
Proof.
  intros u v c Hc Q. induction Q as [|x a u v A Q IH]; [simpl; unfold dotL; simpl; lra|]. change (length (a :: v)) with (Datatypes.S (length v)). rewrite S_INR.
  unfold minusL, dotL in *. cbn [map2 sumR fold_right]. fold sumR. change (fold_right Rplus 0) with sumR in *.
  assert ((a - x) * (a - x) <= c * c). { rewrite Rabs_minus_sym in A. apply Rabs_le_inv in A. nra. } lra.
Qed.
Lemma Forall2_len {X Y} (P : X -> Y -> Prop) u v : Forall2 P u v -> length u = length v.
Proof. induction 1; simpl; congruence. Qed.
Lemma Forall2_imp {X Y} (P Q : X -> Y -> Prop) u v : (forall x y, P x y -> Q x y) -> Forall2 P u v -> Forall2 Q u v.
Proof. intros I. induction 1; constructor; auto. Qed.
Lemma plus_minus : forall u v : list R, length u = length v -> map2 (fun x y => x + 1 * y) u (minusL v u) = v.
Proof. induction u as [|x u IH]; intros [|y v] E; try discriminate; [reflexivity|]. injection E as E. unfold minusL in *. cbn [map2]. rewrite IH by auto. f_equal. ring. Qed.
Lemma minus_len : forall u v : list R, length u = length v -> length (minusL v u) = length u.
Proof. unfold minusL. induction u as [|x u IH]; intros [|y v] E; try discriminate; [reflexivity|]. injection E as E. cbn [map2 length]. now rewrite IH. Qed.
Lemma norm_near u v c : 0 <= c -> Forall2 (fun x a => Rabs (x - a) <= c) u v -> sqrt (dotL v v) <= sqrt (dotL u u) + sqrt (INR (length v)) * c.
Proof.
  intros Hc Q. pose proof (Forall2_len _ _ _ Q) as Le. pose proof (dot_near u v c Hc Q) as N. pose proof (minus_len u v Le) as Ld. set (d := minusL v u) in *.
  pose proof (dotL_quad u 1 d (eq_sym Ld)) as E. unfold d in E at 1 2. rewrite plus_minus in E by auto. fold d in E.
  pose proof (dotL_cauchy u d (eq_sym Ld)) as C. pose proof (dotL_sq_nonneg u) as Pu. pose proof (dotL_sq_nonneg d) as Pd. pose proof (pos_INR (length v)) as Pn.
  set (a := sqrt (dotL u u)). set (b := sqrt (INR (length v)) * c). assert (Pa : 0 <= a) by apply sqrt_pos. assert (Pb : 0 <= b) by (apply Rmult_le_pos; [apply sqrt_pos | auto]).
  assert (Ea : a * a = dotL u u) by (apply sqrt_sqrt; auto). assert (Eb : b * b = INR (length v) * (c * c)). { unfold b. replace (sqrt (INR (length v)) * c * (sqrt (INR (length v)) * c)) with (sqrt (INR (length v)) * sqrt (INR (length v)) * (c * c)) by ring. now rewrite sqrt_sqrt. }
  rewrite <- (sqrt_Rsqr (a + b)) by lra. apply sqrt_le_1_alt. unfold Rsqr.
  assert (X : dotL u d <= a * b). { apply Rsqr_incr_0_var; [|now apply Rmult_le_pos]. unfold Rsqr. apply Rle_trans with (dotL u u * dotL d d); auto. replace (a * b * (a * b)) with (dotL u u * (b * b)) by (rewrite <- Ea; ring). apply Rmult_le_compat_l; lra. }
  lra.
Qed.
Lemma norm_each v c : 0 <= c -> List.Forall (fun a => Rabs a <= c) v -> sqrt (dotL v v) <= sqrt (INR (length v)) * c.
Proof.
  intros Hc Q. assert (N : dotL v v <= INR (length v) * (c * c)).
  { induction Q as [|a v A Q IH]; [unfold dotL; simpl; lra|]. change (length (a :: v)) with (Datatypes.S (length v)). rewrite S_INR. unfold dotL in *. cbn [map2 sumR fold_right]. change (fold_right Rplus 0) with sumR in *. apply Rabs_le_inv in A. assert (a * a <= c * c) by nra. lra. }
  apply Rle_trans with (sqrt (INR (length v) * (c * c))); [now apply sqrt_le_1_alt|]. rewrite sqrt_mult by (try apply pos_INR; nra). rewrite sqrt_square by auto. lra.
Qed.

(** ** The gradient *)
Section Gradient.
Variable L : libm.
#[local] Instance AFg : Arith spec_float := ArithF L.
Hypothesis SC : accurate_sincos L.
Variables (M D : R) (h : heap spec_float) (s : sketch).
Hypothesis M1 : / 2 ^ 100 <= M.
Hypothesis M2 : M <= 2 ^ 100.
Hypothesis D1 : / 2 ^ 150 <= D.
Hypothesis D2 : D <= 2 ^ 200.
Hypothesis V : valid h s.
Hypothesis Sm : forall k, In k (s_cons s) -> smooth L M h k.
Hypothesis SD : forall k, In k (s_cons s) -> slope_unit M h k <= D.
Let m := INR (length (s_cons s)).
Hypothesis Hm : m <= 2 ^ 40.
Let H := exact_heap h.
Let err := m * m * D / 2 ^ 42.
Lemma D_pos : 0 < D. Proof. assert (0 < / 2 ^ 150) by (apply Rinv_0_lt_compat, pow_lt; lra). lra. Qed.
Lemma eta_D : eta <= U * D.
Proof.
  unfold U. apply Rle_trans with (/ 2 ^ 53 * / 2 ^ 150); [|apply Rmult_le_compat_l; auto; apply Rlt_le, Rinv_0_lt_compat, pow_lt; lra].
  rewrite !pow_bp, <- !bpow_opp, <- bpow_plus. unfold eta. apply bp_le. cbv. discriminate.
Qed.
Lemma m_cases : m = 0 \/ 1 <= m.
Proof. unfold m. destruct (length (s_cons s)); [left; reflexivity | right; rewrite S_INR; pose proof (pos_INR n); lra]. Qed.
Lemma err_pos : 0 <= err. Proof. unfold err. pose proof D_pos. assert (0 <= m) by apply pos_INR. apply Rmult_le_pos; [|apply Rlt_le, Rinv_0_lt_compat, pow_lt; lra]. apply Rmult_le_pos; nra. Qed.
Lemma nondeg k : In k (s_cons s) -> nondegenerate (cfg_of H) H (getK H k).
Proof.
  intros Hk. destruct (live L M h k (Sm k Hk)) as [A Q]. fold H in A, Q. destruct (Sm k Hk) as [(_ & _ & _ & R4) _]. unfold H in *. rewrite (getK_ex h) in *. destruct (getK h k); cbn [exact_con nondegenerate active eqlen_ok] in *; auto; try contradiction.
Qed.
Lemma finite_cons : all_con_finite H s.
Proof. intros k Hk. exact (con_ex L M h k (Sm k Hk)). Qed.
Lemma grad_both : exists h' g H' G, get_gradient s h = (h', Val g) /\ get_gradient s H = (H', Val (map Fin G)) /\
  Forall2 (fun x a => finite64 x /\ Rabs (value x) <= bp 250 /\ Rabs (value x - a) <= err) g G.
Proof.
  pose proof D_pos as PD. pose proof U_small as PU. pose proof eta_D as ED. pose proof eta_t as (E0 & _). assert (Pm : 0 <= m) by apply pos_INR.
  assert (EN : INR (4 * length (s_cons s)) = 4 * m) by (rewrite mult_INR; simpl; unfold m; ring).
  assert (UD : 0 < U * D) by (apply Rmult_lt_0_compat; lra).
  assert (mU : m * U <= / 1024 / 8). { apply Rle_trans with (2 ^ 40 * U); [apply Rmult_le_compat_r; lra|]. unfold U. simpl. lra. }
  assert (mUD : m * (U * D) <= / 1024 / 8 * D). { rewrite <- Rmult_assoc. apply Rmult_le_compat_r; lra. }
  assert (U1 : U * D <= / 1000000 * D) by (apply Rmult_le_compat_r; lra).
  assert (Dm : m * D <= bp 240). { replace (bp 240) with (2 ^ 40 * 2 ^ 200) by (rewrite !pow_bp, <- bpow_plus; reflexivity). apply Rmult_le_compat; lra. }
  assert (B240 : 0 < bp 240) by apply bpow_gt_0.
  assert (NU : INR (4 * length (s_cons s)) * U <= / 8) by (rewrite EN; lra).
  assert (Bd : U * (4 * m * (6 * D)) = 24 * (m * (U * D))) by ring.
  assert (NB : INR (4 * length (s_cons s)) * (6 * D + 3 * (200 * (U * D) + U * (INR (4 * length (s_cons s)) * (6 * D)) + eta)) <= big).
  { rewrite EN, Bd. apply Rle_trans with (4 * m * (7 * D)); [apply Rmult_le_compat_l; lra|]. replace (4 * m * (7 * D)) with (28 * (m * D)) by ring. apply Rle_trans with (bp 5 * bp 240); [change (bp 5) with 32; lra|]. rewrite <- bpow_plus. unfold big. apply bp_le. lia. }
  assert (OK1 : forall c, In c (cells s) -> cell_ok h c) by (intros c Hc; apply V; now apply (valid_reg h)).
  assert (OK2 : forall c, In c (cells s) -> cell_ok H c) by (intros c Hc; apply cell_same; auto).
  assert (SA : forall a, a_center (getA H a) = a_center (getA h a)) by (intros a; unfold H; now rewrite (getA_ex L h)).
  destruct (gradient_near L h H s OK1 OK2 (fun l => eq_refl) SA (4 * length (s_cons s)) (6 * D) (200 * (U * D)) ltac:(lra) ltac:(lra) NU NB) as (h' & g & H' & G & Eg & EG & Q).
  { intros k Hk. exact (rows_all L SC M D h M1 M2 k (Sm k Hk) (SD k Hk)). } { lia. }
  exists h', g, H', G. split; auto. split; auto. revert Q. apply Forall2_imp. intros x a A. unfold F in A. rewrite EN, Bd in A.
  assert (Er : 4 * m * (2 * (200 * (U * D) + 24 * (m * (U * D)) + eta)) <= err).
  { apply Rle_trans with (8 * (m * (225 * m * (U * D)))).
    - destruct m_cases as [Z|O]; [rewrite Z; lra|]. replace (4 * m * (2 * (200 * (U * D) + 24 * (m * (U * D)) + eta))) with (8 * (m * (200 * (U * D) + 24 * (m * (U * D)) + eta))) by ring. apply Rmult_le_compat_l; [lra|]. apply Rmult_le_compat_l; [lra|].
      assert (U * D <= m * (U * D)) by (rewrite <- (Rmult_1_l (U * D)) at 1; apply Rmult_le_compat_r; lra). lra.
    - unfold err. replace (m * m * D / 2 ^ 42) with (2048 * (m * m * (U * D))). 2:{ unfold U. replace (2 ^ 53) with (2048 * 2 ^ 42) by (simpl; ring). field. }
      assert (0 <= m * m * (U * D)) by (apply Rmult_le_pos; nra). replace (8 * (m * (225 * m * (U * D)))) with (1800 * (m * m * (U * D))) by ring. lra. }
  pose proof (ap_value _ _ _ _ A) as AV. destruct A as (A1 & _ & A3). split; auto. split; [|lra]. eapply Rle_trans; [exact AV|].
  assert (4 * m * (2 * (200 * (U * D) + 24 * (m * (U * D)) + eta)) <= 8 * (m * D)). { replace (4 * m * (2 * (200 * (U * D) + 24 * (m * (U * D)) + eta))) with (8 * (m * (200 * (U * D) + 24 * (m * (U * D)) + eta))) by ring. apply Rmult_le_compat_l; [lra|]. apply Rmult_le_compat_l; lra. }
  apply Rle_trans with (bp 5 * bp 240); [change (bp 5) with 32; lra|]. rewrite <- bpow_plus. apply bp_le. lia.
Qed.

(** ** C86: the gradient *)
Lemma slope_lemma : exists h' g G, get_gradient s h = (h', Val g) /\ length G = get_n_dofs h s /\
  (forall d, length d = get_n_dofs h s -> derivable_pt_lim (fun t => vx (get_loss (moved H s d t) s)) 0 (dotL G d)) /\
  Forall2 (fun x a => finite64 x /\ Rabs (value x - a) <= err) g G.
Proof.
  destruct grad_both as (h' & g & H' & G & Eg & EG & Q). destruct (C15_lemma H s (valid_same L h s V) finite_cons nondeg) as (H2 & G2 & E2 & L2 & P2).
  rewrite EG in E2. injection E2 as _ E2. apply (f_equal (map vx)) in E2. rewrite !map_map in E2. simpl in E2. rewrite !map_id in E2. subst G2.
  exists h', g, G. split; auto. unfold H in L2. rewrite (dofs_same L h s) in L2. split; auto. split.
  - intros d Ld. apply P2. unfold H. now rewrite (dofs_same L h s).
  - revert Q. apply Forall2_imp. tauto.
Qed.

(** ** where the solvers stop *)
(** the exact loss *)
Lemma exact_loss : exists l, get_loss H s = Fin l /\ forall k, In k (s_cons s) -> discrepancy h k * discrepancy h k <= 2 * l.
Proof.
  set (l := sumR (map (fun j => lossR (cfg_of H) H (getK H j)) (s_cons s))). exists l. split; [exact (get_loss_R H s finite_cons)|].
  intros k Hk. assert (Z : forall j, 0 <= lossR (cfg_of H) H (getK H j)) by (intros j; apply lossR_nonneg).
  assert (I : lossR (cfg_of H) H (getK H k) <= l) by exact (in_sum_le (fun j => lossR (cfg_of H) H (getK H j)) (s_cons s) k Z Hk).
  assert (E : residual2 (cfg_of H) H (getK H k) = 2 * lossR (cfg_of H) H (getK H k)) by (unfold lossR; field).
  unfold discrepancy. fold H. cbv zeta. fold H. specialize (Z k). rewrite E. rewrite sqrt_sqrt; lra.
Qed.
Lemma to_discrepancy K l N : 0 <= K -> 2 * l <= K * K * (N * N) -> 0 <= N -> (forall k, In k (s_cons s) -> discrepancy h k * discrepancy h k <= 2 * l) ->
  forall k, In k (s_cons s) -> discrepancy h k <= K * N.
Proof. intros PK E PN Q k Hk. specialize (Q k Hk). apply Rsqr_incr_0_var; [unfold Rsqr; lra | now apply Rmult_le_pos]. Qed.
(** a bound for the slope, which the loss is at most [K] times *)
Definition loss_by_slope (K : R) : Prop := 0 <= K /\ forall H' G l, get_gradient s H = (H', Val (map Fin G)) -> get_loss H s = Fin l -> 2 * l <= K * K * dotL G G.
Lemma slope_lengths h' g G : get_gradient s h = (h', Val g) -> Forall2 (fun x a => finite64 x /\ Rabs (value x) <= bp 250 /\ Rabs (value x - a) <= err) g G ->
  length g = get_n_dofs h s /\ length G = get_n_dofs h s.
Proof.
  intros Eg Q. assert (Lg : length g = get_n_dofs h s). { destruct slope_lemma as (h2 & g2 & G2 & E2 & L2 & _ & Q2). rewrite Eg in E2. injection E2 as _ <-. rewrite <- L2. apply (Forall2_len _ _ _ Q2). }
  split; auto. rewrite <- (Forall2_len _ _ _ Q). exact Lg.
Qed.
Lemma stop_norm K h' g e : loss_by_slope K -> get_gradient s h = (h', Val g) -> finite64 e -> SFltb (vnorm g) e = true -> INR (get_n_dofs h s) <= 2 ^ 45 ->
  forall k, In k (s_cons s) -> discrepancy h k <= K * (8 / 7 * value e + sqrt (INR (get_n_dofs h s)) * (m * m * D / 2 ^ 41)).
Proof.
  intros [PK LB] Eg Fe Lt Hn k Hk. destruct grad_both as (h2 & g2 & H' & G & E2 & EG & Q). rewrite Eg in E2. injection E2 as _ <-. destruct (slope_lengths h' g G Eg Q) as [Lg LG].
  destruct exact_loss as (l & El & Dk). specialize (LB H' G l EG El). pose proof (dotL_sq_nonneg G) as PG.
  assert (NL : finite64 (vnorm g) /\ sqrt (dotL (map value g) (map value g)) <= 8 / 7 * value (vnorm g) + bp (-490)); [apply (norm_low L g)|destruct NL as [Fn Nl]]. { clear - Q. induction Q as [|x a g G (A & B & _) Q IH]; constructor; auto. } { rewrite Lg. exact Hn. }
  rewrite (ltb_val _ _ Fn Fe) in Lt. apply ExactDecomp.Rltb_true in Lt.
  assert (Q2 : Forall2 (fun x a => Rabs (x - a) <= err) (map value g) G) by (clear - Q; induction Q as [|x a g G (A & B & C) Q IH]; constructor; auto).
  pose proof (norm_near _ _ _ err_pos Q2) as Nn. rewrite LG in Nn.
  rewrite <- (sqrt_sqrt (dotL G G)) in LB by auto.
  eapply Rle_trans; [apply (to_discrepancy K l (sqrt (dotL G G)) PK LB (sqrt_pos _) Dk k Hk)|]. apply Rmult_le_compat_l; auto.
  destruct (Nat.eq_dec (get_n_dofs h s) 0) as [Z|Z].
  - rewrite Z in LG, Lg. destruct G; [|discriminate]. destruct g; [|discriminate]. assert (Ve : value (vnorm []) = 0) by (vm_compute; reflexivity). unfold dotL. simpl. rewrite sqrt_0. assert (0 <= sqrt (INR (get_n_dofs h s)) * (m * m * D / 2 ^ 41)). { rewrite Z. simpl. rewrite sqrt_0. lra. } lra.
  - assert (N1 : 1 <= sqrt (INR (get_n_dofs h s))). { rewrite <- sqrt_1 at 1. apply sqrt_le_1_alt. change 1 with (INR 1). apply le_INR. lia. }
    assert (m1 : 1 <= m). { unfold m. change 1 with (INR 1). apply le_INR. clear - Hk. destruct (s_cons s); [destruct Hk | simpl; lia]. }
    assert (Lo : bp (-490) <= err). { unfold err. assert (D <= m * m * D) by (rewrite <- (Rmult_1_l D) at 1; apply Rmult_le_compat_r; [pose proof D_pos; lra | nra]).
      apply Rle_trans with (/ 2 ^ 150 / 2 ^ 42); [|apply Rmult_le_compat_r; [apply Rlt_le, Rinv_0_lt_compat, pow_lt; lra | lra]]. unfold Rdiv. rewrite !pow_bp, <- !bpow_opp, <- bpow_plus. apply bp_le. cbv. discriminate. }
    assert (E2 : m * m * D / 2 ^ 41 = 2 * err) by (unfold err; replace (2 ^ 42) with (2 * 2 ^ 41) by (simpl; ring); field; apply pow_nonzero; lra). rewrite E2.
    assert (err <= sqrt (INR (get_n_dofs h s)) * err) by (rewrite <- (Rmult_1_l err) at 1; apply Rmult_le_compat_r; [apply err_pos | exact N1]). lra.
Qed.
Lemma max_abs : forall g acc, finite64 acc -> List.Forall finite64 g -> let r := fold_left (fun acc x => fmax acc (fabs x)) g acc in
  finite64 r /\ value acc <= value r /\ List.Forall (fun x => Rabs (value x) <= value r) g.
Proof.
  induction g as [|x g IH]; intros acc Fa Fg; cbn [fold_left]; [split; auto; split; [lra | constructor]|].
  inversion Fg as [|? ? Fx Fr]; subst. destruct (abs_real x Fx) as [F1 E1]. rewrite <- !value_r64 in E1.
  assert (X : finite64 (fmax acc (fabs x)) /\ value acc <= value (fmax acc (fabs x)) /\ Rabs (value x) <= value (fmax acc (fabs x))).
  { unfold fmax. change (flt acc (fabs x)) with (SFltb acc (SFabs x)). change (fabs x) with (SFabs x). rewrite (ltb_val _ _ Fa F1). rewrite E1.
    destruct (Rltb (value acc) (Rabs (value x))) eqn:T; [apply ExactDecomp.Rltb_true in T; rewrite E1; split; auto; lra|]. apply ExactDecomp.Rltb_false in T.
    assert (Q : feq acc acc = true). { change (feq acc acc) with (SFeqb acc acc). destruct Fa as [Va Fa]. unfold SFeqb. destruct acc as [?|[]| |[] ? ?]; try discriminate Fa; try reflexivity; cbn [SFcompare]; rewrite Z.compare_refl, Pos.compare_cont_refl; reflexivity. }
    rewrite Q. split; auto. lra. }
  destruct X as (X1 & X2 & X3). specialize (IH (fmax acc (fabs x)) X1 Fr). cbv zeta in IH. destruct IH as (I1 & I2 & I3). split; auto. split; [lra|]. constructor; [lra | auto].
Qed.
Lemma stop_max K h' g e : loss_by_slope K -> get_gradient s h = (h', Val g) -> finite64 e -> SFltb (vnorm_inf g) e = true ->
  forall k, In k (s_cons s) -> discrepancy h k <= K * (sqrt (INR (get_n_dofs h s)) * (value e + err)).
Proof.
  intros [PK LB] Eg Fe Lt k Hk. destruct grad_both as (h2 & g2 & H' & G & E2 & EG & Q). rewrite Eg in E2. injection E2 as _ <-. destruct (slope_lengths h' g G Eg Q) as [Lg LG].
  destruct exact_loss as (l & El & Dk). specialize (LB H' G l EG El). pose proof (dotL_sq_nonneg G) as PG.
  destruct (max_abs g f0) as (Fn & Z & Al). { split; reflexivity. } { clear - Q. induction Q as [|x a g G (A & B & _) Q IH]; constructor; auto. }
  fold (vnorm_inf g) in Fn, Z, Al. rewrite (ltb_val _ _ Fn Fe) in Lt. apply ExactDecomp.Rltb_true in Lt. change (value f0) with 0 in Z.
  rewrite <- (sqrt_sqrt (dotL G G)) in LB by auto.
  eapply Rle_trans; [apply (to_discrepancy K l (sqrt (dotL G G)) PK LB (sqrt_pos _) Dk k Hk)|]. apply Rmult_le_compat_l; auto. rewrite <- LG. apply norm_each; [pose proof err_pos; lra|].
  set (r := vnorm_inf g) in Lt, Fn, Z, Al. clearbody r. clear - Q Al Lt. induction Q as [|x a g' G (A & B & C) Q IH]; constructor; inversion Al; subst; auto.
  replace a with (value x - (value x - a)) by ring. eapply Rle_trans; [apply Rabs_triang|]. rewrite Rabs_Ropp. cbv beta in *. lra.
Qed.
Lemma factor K : no_plateau L K h s -> loss_by_slope K.
Proof.
  intros [(-> & RC & OB & BI)|(-> & LS & FD & x & hx & Hx & Sx)]; (split; [apply pos_INR|]); intros H' G l EG El.
  - apply (C85_gap_lemma H s H' G l (valid_same L h s V) (closed_same L h s RC) finite_cons); [|now apply (by_one_same L)|auto|auto].
    intros k Hk. split; [now apply nondeg|]. unfold H. rewrite (binary_same h k). auto.
  - assert (FH : finite_data H s) by (now apply (data_same L)). assert (LH : linear_sketch H s) by (intros k Hk; unfold H; rewrite (linear_same h k); now apply LS).
    apply (gap_N s H (valid_same L h s V) finite_cons LH x hx Hx Sx H H' G l); auto. apply okh_init; auto. now apply (valid_same L).
Qed.
End Gradient.

(** ** the solvers *)
Section Solvers.
Variable L : libm.
#[local] Instance AFv : Arith spec_float := ArithF L.
Lemma struct_exact h h' : struct_eq h h' -> struct_eq (exact_heap h) (exact_heap h').
Proof.
  intros (E1 & E2 & E3 & E4 & E5 & E6 & E7). unfold struct_eq. split; [exact E1|]. split; [unfold exact_heap; cbn [h_cons]; now rewrite E2|].
  split; [unfold exact_heap; cbn [h_pts]; now rewrite !map_length|]. split; [unfold exact_heap; cbn [h_arcs]; now rewrite !map_length|]. split; [unfold exact_heap; cbn [h_circs]; now rewrite !map_length|].
  split; intros l; [rewrite !(getA_ex L) | rewrite !(getC_ex L)]; [apply E6 | apply E7].
Qed.
Lemma struct_back (h h' : heap xR) hx : struct_eq h h' -> struct_eq h hx -> struct_eq h' hx.
Proof.
  intros (E1 & E2 & E3 & E4 & E5 & E6 & E7) (X1 & X2 & X3 & X4 & X5 & X6 & X7). unfold struct_eq. repeat split; try congruence.
  - rewrite (proj1 (X6 l)), (proj1 (E6 l)). reflexivity.
  - rewrite (proj2 (X6 l)), (proj2 (E6 l)). reflexivity.
Qed.
Lemma plateau_kept K h h' s : valid h s -> frame s h h' -> (finite_data h s -> finite_data h' s) -> no_plateau L K h s -> no_plateau L K h' s.
Proof.
  intros V [S Fr] FD [(-> & RC & OB & BI)|(-> & LS & Fd & x & hx & (X1 & X2 & X3) & Sx)]; [left|right].
  - split; auto. split; [exact (closed_run h h' s S RC)|]. split; [exact (by_one_run h h' s S OB)|]. intros k Hk. rewrite (getK_run h h' S). auto.
  - split; auto. split; [intros k Hk; rewrite (getK_run h h' S); now apply LS|]. split; auto. exists x, hx. split; auto. split.
    + apply (struct_back (exact_heap h)); auto. now apply struct_exact.
    + split; auto. intros c Hc. rewrite (X3 c Hc), !(data_ex L). f_equal. symmetry. apply Fr. intros Q. apply Hc. now apply (valid_reg h).
Qed.
Hypothesis SC : accurate_sincos L.
Variables (M D K : R) (s : sketch) (h h' : heap spec_float).
Hypothesis M1 : / 2 ^ 100 <= M.
Hypothesis M2 : M <= 2 ^ 100.
Hypothesis D1 : / 2 ^ 150 <= D.
Hypothesis D2 : D <= 2 ^ 200.
Hypothesis V : valid h s.
Hypothesis NP : no_plateau L K h s.
Hypothesis Sm : forall k, In k (s_cons s) -> smooth L M h' k.
Hypothesis SD : forall k, In k (s_cons s) -> slope_unit M h' k <= D.
Let m := INR (length (s_cons s)).
Hypothesis Hm : m <= 2 ^ 40.
Let n := INR (get_n_dofs h s).
Lemma gd_kept P r : gd_run s P h = (h', r) -> frame s h h' /\ (finite_data h s -> finite_data h' s).
Proof.
  intros E. assert (E' : fst (solve (fun _ _ => PErr) (GradientBased P) s h) = h') by (cbn [solve]; unfold mbind; rewrite E; destruct r; reflexivity).
  rewrite <- E'. split; [apply solve_frame | intros FD; now apply C32_lemma].
Qed.
Lemma bfgs_kept P r : bfgs_run s P h = (h', r) -> frame s h h' /\ (finite_data h s -> finite_data h' s).
Proof.
  intros E. assert (E' : fst (solve (fun _ _ => PErr) (BFGS P) s h) = h') by (cbn [solve]; unfold mbind; rewrite E; destruct r; reflexivity).
  rewrite <- E'. split; [apply solve_frame | intros FD; now apply C32_lemma].
Qed.
Lemma gd_stops P r : gd_run s P h = (h', Val (SOk r)) -> finite64 (gd_min_loss P) -> finite64 (gd_min_grad P) -> n <= 2 ^ 45 ->
  (forall k, In k (s_cons s) -> discrepancy h' k <= sqrt (2 * value (gd_min_loss P)) + unit_of M (getK h' k) / 2 ^ 47) \/
  (forall k, In k (s_cons s) -> discrepancy h' k <= K * (8 / 7 * value (gd_min_grad P) + sqrt n * (m * m * D / 2 ^ 41))) \/
  r = N.to_nat (gd_max P).
Proof.
  intros E F1 F2 Hn. destruct (gd_kept P _ E) as [Fr FD]. assert (V' : valid h' s) by (eapply valid_struct; [exact V | apply Fr]).
  assert (Nd : get_n_dofs h' s = get_n_dofs h s) by now rewrite !n_dofs_dims.
  destruct (C22_gd_lemma s P h h' r V E) as [C|[(g & Eg & Lt)|C]]; [left|right; left|right; right; exact C].
  - exact (below_lemma L SC M h' s M1 M2 (fun k Hk => proj1 (Sm k Hk)) _ F1 C).
  - destruct (get_gradient s h') as [h1 r1] eqn:E1. cbn [snd] in Eg. subst r1. unfold n. rewrite <- Nd. intros k Hk.
    assert (Hn' : INR (get_n_dofs h' s) <= 2 ^ 45) by (rewrite Nd; exact Hn). assert (NP' : no_plateau L K h' s) by (now apply (plateau_kept K h)).
    apply (stop_norm L SC M D h' s M1 M2 D1 D2 V' Sm SD Hm K h1 g (gd_min_grad P)); auto. now apply (factor L M).
Qed.
Lemma bfgs_stops P r : bfgs_run s P h = (h', Val (SOk r)) -> finite64 (bf_min_loss P) -> finite64 (bf_grad P) ->
  (forall k, In k (s_cons s) -> discrepancy h' k <= sqrt (2 * value (bf_min_loss P)) + unit_of M (getK h' k) / 2 ^ 47) \/
  (forall k, In k (s_cons s) -> discrepancy h' k <= K * (sqrt n * (value (bf_grad P) + m * m * D / 2 ^ 42))) \/
  r = bf_max P.
Proof.
  intros E F1 F2. destruct (bfgs_kept P _ E) as [Fr FD]. assert (V' : valid h' s) by (eapply valid_struct; [exact V | apply Fr]).
  assert (Nd : get_n_dofs h' s = get_n_dofs h s) by now rewrite !n_dofs_dims.
  destruct (C22_bfgs_lemma s P h h' r V E) as [C|[(g & Eg & Lt)|C]]; [left|right; left|right; right; exact C].
  - exact (below_lemma L SC M h' s M1 M2 (fun k Hk => proj1 (Sm k Hk)) _ F1 C).
  - destruct (get_gradient s h') as [h1 r1] eqn:E1. cbn [snd] in Eg. subst r1. unfold n. rewrite <- Nd. intros k Hk.
    apply (stop_max L SC M D h' s M1 M2 D1 D2 V' Sm SD Hm K h1 g (bf_grad P)); auto. apply (factor L M); auto. now apply (plateau_kept K h).
Qed.
End Solvers.
