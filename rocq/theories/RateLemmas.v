(** * Linear sketches as graphs: bounds on slope and curvature along the gradient *)
From Coq Require Import List ZArith NArith Arith Bool Lia Sorted Reals Lra Classical.
From Verif Require Import Arith Vec Prim Cons Sketch Solve Api Spec SolverSpec ArithR ExactSpec LinearSpec
  HeapLemmas SolveLemmas WfLemmas DataLemmas SpecLemmas ExactLemmas DerivLemmas GradLemmas PureLemmas LossLemmas
  SearchLemmas StepLemmas RMat ExactRun SolverForms LinearLemmas LinearForms MotionLemmas SymLemmas GraphLemmas.
Import ListNotations.
Local Open Scope R_scope.

(** ** edges of a constraint *)
Definition xedges (h : heap xR) (c : con xR) : list edge :=
  match c with
  | HorizontalDistance p1 p2 _ => [(p2, Some p1)]
  | FixPoint p _ _ => [(p, None)]
  | VerticalLine l => [(l_end (getL h l), Some (l_start (getL h l)))]
  | _ => []
  end.
Definition yedges (h : heap xR) (c : con xR) : list edge :=
  match c with
  | VerticalDistance p1 p2 _ => [(p2, Some p1)]
  | FixPoint p _ _ => [(p, None)]
  | HorizontalLine l => [(l_end (getL h l), Some (l_start (getL h l)))]
  | _ => []
  end.
Definition Ex (h : heap xR) s := flat_map (fun k => xedges h (getK h k)) (s_cons s).
Definition Ey (h : heap xR) s := flat_map (fun k => yedges h (getK h k)) (s_cons s).
Definition curv (h : heap xR) s (D : cfg) : R := (energy (Ex h s) (cx D) + energy (Ey h s) (cy D)) / 2.

Lemma energy_app E1 E2 u : energy (E1 ++ E2) u = energy E1 u + energy E2 u.
Proof. unfold energy. rewrite map_app. induction E1 as [|e E1 IH]; simpl; [symmetry; apply Rplus_0_l|]. rewrite IH. symmetry. apply Rplus_assoc. Qed.
Lemma energy_flat {T} (f : T -> list edge) l u : energy (flat_map f l) u = sumR (map (fun k => energy (f k) u) l).
Proof. induction l as [|k l IH]; simpl; [reflexivity|]. now rewrite energy_app, IH. Qed.

Lemma lin_one_q g D h c : linear c = true -> exists b,
  forall t, lossR (shift g D t) h c = lossR g h c + t * b + t * t * ((energy (xedges h c) (cx D) + energy (yedges h c) (cy D)) / 2).
Proof.
  destruct c as [| | | |p1 p2 d|p1 p2 d|p x y| |l|l| |]; try discriminate; intros _; unfold lossR, energy; simpl.
  - exists ((cx g p2 - cx g p1 - vx d) * (cx D p2 - cx D p1)). intros t. unfold sq. field.
  - exists ((cy g p2 - cy g p1 - vx d) * (cy D p2 - cy D p1)). intros t. unfold sq. field.
  - exists ((cx g p - vx x) * cx D p + (cy g p - vx y) * cy D p). intros t. unfold sq. field.
  - set (a := l_start (getL h l)). set (b := l_end (getL h l)). exists ((cy g b - cy g a) * (cy D b - cy D a)). intros t. unfold sq. field.
  - set (a := l_start (getL h l)). set (b := l_end (getL h l)). exists ((cx g b - cx g a) * (cx D b - cx D a)). intros t. unfold sq. field.
Qed.
Lemma lin_sum_q g D (h : heap xR) ks : (forall k, In k ks -> linear (getK h k) = true) -> exists b,
  forall t, sumR (map (fun k => lossR (shift g D t) h (getK h k)) ks) =
            sumR (map (fun k => lossR g h (getK h k)) ks) + t * b +
            t * t * ((energy (flat_map (fun k => xedges h (getK h k)) ks) (cx D) + energy (flat_map (fun k => yedges h (getK h k)) ks) (cy D)) / 2).
Proof.
  induction ks as [|k ks IH]; intros H.
  - exists 0. intros t. unfold energy. simpl. field.
  - destruct IH as (b & E); [intros; apply H; now right|].
    destruct (lin_one_q g D h (getK h k) (H k (or_introl eq_refl))) as (b' & E').
    exists (b + b'). intros t. simpl. rewrite E, E', !energy_app. field.
Qed.
Lemma quadratic_curv h s : valid h s -> all_con_finite h s -> linear_sketch h s ->
  exists h' g l, get_gradient s h = (h', Val (map Fin g)) /\ length g = get_n_dofs h s /\ get_loss h s = Fin l /\
    forall d, length d = get_n_dofs h s ->
      forall t, get_loss (moved h s d t) s = Fin (l + t * dotL g d + t * t * curv h s (D_of (cells s) d)).
Proof.
  intros V Hf Hl. pose proof (valid_nd _ _ V) as ND. pose proof (valid_cells _ _ V) as OK.
  destruct (linear_quadratic h s V Hf Hl) as (h' & g & l & Eg & Lg & El & Q).
  exists h', g, l. split; [exact Eg|]. split; [exact Lg|]. split; [exact El|].
  intros d Ld. destruct (Q d Ld) as (q & _ & E).
  destruct (lin_sum_q (cfg_of h) (D_of (cells s) d) h (s_cons s) Hl) as (b & B).
  assert (K : forall t, l + t * dotL g d + t * t * q = l + t * b + t * t * curv h s (D_of (cells s) d)).
  { intros t. assert (X : Fin (l + t * dotL g d + t * t * q) = Fin (l + t * b + t * t * curv h s (D_of (cells s) d))); [|now injection X].
    rewrite <- E. destruct (moved_ok h s d t ND OK Ld) as (S & _). rewrite get_loss_R.
    - f_equal. rewrite get_loss_R in El by auto. injection El as <-. unfold curv, Ex, Ey. rewrite <- B, (moved_cfg h s d t ND OK Ld).
      f_equal. apply map_ext_in. intros k _. rewrite (struct_getK _ _ _ S). now apply struct_lossR.
    - intros k Hk. rewrite (struct_getK _ _ _ S). apply moved_con_finite; auto. }
  intros t. rewrite E. f_equal. pose proof (K 1) as K1. pose proof (K (-1)) as K2.
  assert (q = curv h s (D_of (cells s) d)) as -> by lra. reflexivity.
Qed.

(** ** vectors that move points only *)
Section Pts.
Variable s : sketch.
Hypothesis ND : NoDup (cells s).
Notation V := (points s).
Lemma points_in l : In l V <-> In (PPoint l) (cells s).
Proof.
  unfold points. rewrite in_flat_map. split.
  - intros (c & Hc & Hl). destruct c; simpl in Hl; try tauto. destruct Hl as [->|[]]. exact Hc.
  - intros H. exists (PPoint l). split; [exact H|now left].
Qed.
Lemma points_nodup : NoDup V.
Proof.
  unfold points. induction ND as [|c cs Hc N IH]; simpl; [constructor|].
  destruct c; simpl; auto. constructor; auto. intros X. apply in_flat_map in X as (c & Hc' & Hl).
  destruct c; simpl in Hl; try tauto. destruct Hl as [->|[]]. contradiction.
Qed.
Definition pf (wx wy : loc -> R) (c : pcell) : list R :=
  match c with PPoint l => [wx l; wy l] | c => repeat 0 (dim c) end.
Lemma pf_dim wx wy c : length (pf wx wy c) = dim c.
Proof. destruct c; simpl; auto. Qed.
Definition pv wx wy := cellvec s (pf wx wy).
Lemma pv_length wx wy : length (pv wx wy) = dims (cells s).
Proof. apply cellvec_length. apply pf_dim. Qed.
Lemma D_pv wx wy : off V wx -> off V wy -> forall l, cx (D_of (cells s) (pv wx wy)) l = wx l /\ cy (D_of (cells s) (pv wx wy)) l = wy l.
Proof.
  intros Ox Oy l. destruct (in_dec pcell_dec (PPoint l) (cells s)) as [H|H].
  - apply (D_cellvec_pt s (pf wx wy) (pf_dim wx wy) l H).
  - destruct (D_of_pt_out (cells s) (pv wx wy) l H) as [-> ->]. rewrite Ox, Oy by (rewrite points_in; auto). auto.
Qed.
Lemma D_off d : off V (cx (D_of (cells s) d)) /\ off V (cy (D_of (cells s) d)).
Proof. split; intros l H; rewrite points_in in H; apply (D_of_pt_out (cells s) d l H). Qed.
Lemma pv_dot wx wy g : length g = dims (cells s) ->
  dotL g (pv wx wy) = sumR (map (fun l : nat => cx (D_of (cells s) g) l * wx l) V) + sumR (map (fun l : nat => cy (D_of (cells s) g) l * wy l) V).
Proof.
  intros Lg. rewrite dot_comm. unfold pv, cellvec. rewrite dot_cells; auto using pf_dim.
  unfold points. simpl cx. simpl cy.
  assert (G : forall cs, incl cs (cells s) -> sumR (map (fun c => dotL (pf wx wy c) (chunk (cells s) g c)) cs) =
    sumR (map (fun l : nat => nth 0 (chunk (cells s) g (PPoint l)) 0 * wx l) (flat_map (fun c => match c with PPoint l => [l] | _ => [] end) cs)) +
    sumR (map (fun l : nat => nth 1 (chunk (cells s) g (PPoint l)) 0 * wy l) (flat_map (fun c => match c with PPoint l => [l] | _ => [] end) cs))).
  { induction cs as [|c cs IH]; intros Hi; simpl; [ring|]. rewrite IH by (intros x Hx; apply Hi; now right).
    pose proof (chunk_length (cells s) g c (Hi c (or_introl eq_refl)) Lg) as L.
    destruct c as [l| | |]; simpl pf; simpl flat_map; cbn [app].
    - cbn [map sumR fold_right]. destruct (chunk (cells s) g (PPoint l)) as [|a [|b [|]]]; try discriminate. unfold dotL. simpl. unfold sumR. ring.
    - unfold dotL at 1. simpl. ring.
    - destruct (chunk (cells s) g _) as [|a [|b [|e [|]]]]; try discriminate. unfold dotL at 1. simpl. ring.
    - destruct (chunk (cells s) g _) as [|a [|]]; try discriminate. unfold dotL at 1. simpl. ring. }
  apply G, incl_refl.
Qed.
End Pts.

Lemma energy_ext E u w : (forall v, u v = w v) -> energy E u = energy E w.
Proof. intros H. unfold energy. f_equal. apply map_ext. intros [a [b|]]; simpl; now rewrite ?H. Qed.
Lemma energy_zero E : energy E (fun _ => 0) = 0.
Proof. unfold energy. induction E as [|[a [b|]] E IH]; simpl; auto; rewrite IH; unfold sq; ring. Qed.

(** a functional that vanishes wherever the energy does is tied *)
Lemma tied_of V E w : off V w ->
  (forall i, off V i -> energy E i = 0 -> sumR (map (fun l : nat => w l * i l) V) = 0) -> tied E w.
Proof.
  intros Ho H t v Ht Hv. apply NNPP. intros N. set (i := fun l => if Rlt_dec t (w l) then 1 else 0).
  assert (Oi : off V i) by (intros l Hl; unfold i; rewrite Ho by auto; destruct Rlt_dec; lra).
  assert (Z : energy E i = 0).
  { unfold energy. assert (G : forall e, In e E -> sq (i (fst e) - val i (snd e)) = 0).
    { intros e He. assert (X : ~ crosses w t e) by (intros X; apply N; eauto). unfold crosses in X. destruct e as [a [b|]]; simpl in *.
      - unfold i. destruct (Rlt_dec t (w a)), (Rlt_dec t (w b)); unfold sq; try ring; exfalso; apply X; lra.
      - unfold i. destruct (Rlt_dec t (w a)); unfold sq; try ring; exfalso; apply X; lra. }
    clear -G. induction E as [|e E IH]; simpl; auto. rewrite G by now left. rewrite IH by (intros; apply G; now right). ring. }
  specialize (H i Oi Z).
  assert (Iv : In v V) by (apply NNPP; intros X; apply Ho in X; lra).
  assert (G : sumR (map (fun _ => 0) V) + w v <= sumR (map (fun l : nat => w l * i l) V)).
  { apply (sum_le_one _ _ V v); auto.
    - intros l _. unfold i. destruct Rlt_dec; lra.
    - unfold i. destruct Rlt_dec; lra. }
  rewrite sum_const in G. lra.
Qed.

(** ** one sketch *)
Section One.
Variables (h : heap xR) (s : sketch).
Hypothesis Vd : valid h s.
Hypothesis CF : all_con_finite h s.
Hypothesis LS : linear_sketch h s.
Variables (g : list R) (l : R) (h1 : heap xR).
Hypothesis Eg : get_gradient s h = (h1, Val (map Fin g)).
Hypothesis El : get_loss h s = Fin l.
Notation V := (points s).
Notation cs := (cells s).
Notation nV := (INR (length (points s))).
Notation gx := (cx (D_of (cells s) g)).
Notation gy := (cy (D_of (cells s) g)).
Let nd : NoDup cs := valid_nd _ _ Vd.
Lemma dims_n : get_n_dofs h s = dims cs.
Proof. apply n_dofs_dims. Qed.
Lemma along_curv d : length d = get_n_dofs h s ->
  forall t, get_loss (moved h s d t) s = Fin (l + t * dotL g d + t * t * curv h s (D_of cs d)).
Proof.
  destruct (quadratic_curv h s Vd CF LS) as (h1' & g' & l' & Eg' & Lg & El' & Q). rewrite Eg in Eg'. rewrite El in El'.
  assert (l' = l) as -> by now injection El'.
  assert (g' = g) as ->. { assert (X : map Fin g = map Fin g') by (now injection Eg'). apply (f_equal (map vx)) in X. now rewrite !map_vx_Fin in X. }
  exact (Q d).
Qed.
Lemma g_length : length g = get_n_dofs h s.
Proof. destruct (grad_Fin _ _ _ _ Eg) as (gr & E & L). apply (f_equal (map vx)) in E. unfold FinV in E. rewrite !map_vx_Fin in E. congruence. Qed.
Lemma g_dims : length g = dims cs.
Proof. rewrite g_length. apply n_dofs_dims. Qed.
Lemma curv_nonneg D : 0 <= curv h s D.
Proof. unfold curv. pose proof (energy_nonneg (Ex h s) (cx D)). pose proof (energy_nonneg (Ey h s) (cy D)). lra. Qed.
Lemma slope_curv d : length d = get_n_dofs h s -> dotL g d * dotL g d <= 4 * l * curv h s (D_of cs d).
Proof.
  intros Ld. apply quad_nonneg; [|apply curv_nonneg]. intros t. eapply loss_pos; [|apply along_curv; exact Ld].
  intros k Hk. destruct (moved_ok h s d t nd (valid_cells _ _ Vd) Ld) as (S & _). rewrite (struct_getK _ _ _ S).
  apply moved_con_finite; auto. apply (valid_cells _ _ Vd).
Qed.
Lemma slope_zero d : length d = get_n_dofs h s -> curv h s (D_of cs d) = 0 -> dotL g d = 0.
Proof. intros Ld Z. pose proof (slope_curv d Ld) as H. rewrite Z in H. nra. Qed.

Lemma dot_sub a : forall u v : list R, length u = length v -> dotL a (map2 (fun x y => x - y) u v) = dotL a u - dotL a v.
Proof. unfold dotL. induction a as [|x a IH]; intros [|y u] [|z v] E; simpl in *; try discriminate; try ring. rewrite IH by lia. ring. Qed.
Lemma nth_map2 i : forall u v : list R, length u = length v -> nth i (map2 (fun x y => x - y) u v) 0 = nth i u 0 - nth i v 0.
Proof. induction i as [|i IH]; intros [|y u] [|z v] E; simpl in *; try discriminate; try ring. apply IH. lia. Qed.
(** only the point coordinates matter *)
Lemma dot_pts d : length d = dims cs ->
  dotL g d = sumR (map (fun p : nat => gx p * cx (D_of cs d) p) V) + sumR (map (fun p : nat => gy p * cy (D_of cs d) p) V).
Proof.
  intros Ld. destruct (D_off s d) as [Ox Oy]. rewrite <- (pv_dot s nd (cx (D_of cs d)) (cy (D_of cs d)) g g_dims).
  set (d' := pv s (cx (D_of cs d)) (cy (D_of cs d))). assert (Ld' : length d' = dims cs) by apply pv_length.
  assert (Z : dotL g (map2 (fun x y => x - y) d d') = 0).
  { apply slope_zero; [rewrite map2_length by congruence; rewrite n_dofs_dims; exact Ld|].
    assert (X : forall p, cx (D_of cs (map2 (fun x y => x - y) d d')) p = 0 /\ cy (D_of cs (map2 (fun x y => x - y) d d')) p = 0).
    { intros p. destruct (D_pv s _ _ Ox Oy p) as [A B]. fold d' in A, B. revert A B. simpl. rewrite chunk_map2.
      destruct (in_dec pcell_dec (PPoint p) cs) as [Hp|Hp].
      - intros A B. rewrite !nth_map2 by (rewrite !chunk_length; auto). rewrite A, B. split; ring.
      - rewrite !chunk_none by auto. simpl. auto. }
    unfold curv. rewrite (energy_ext _ (cx _) (fun _ => 0)), (energy_ext _ (cy _) (fun _ => 0)) by apply X. rewrite !energy_zero. field. }
  rewrite dot_sub in Z by congruence. lra.
Qed.
Lemma g_sq : dotL g g = sumR (map (fun p : nat => sq (gx p)) V) + sumR (map (fun p : nat => sq (gy p)) V).
Proof. rewrite dot_pts by apply g_dims. reflexivity. Qed.

Lemma sum_half {T} (a b : T -> R) v : sumR (map (fun k => (a k + b k) / 2) v) = (sumR (map a v) + sumR (map b v)) / 2.
Proof. induction v as [|x v IH]; simpl; [field|]. rewrite IH. field. Qed.
Lemma sum_mul0 (f : nat -> R) v : sumR (map (fun p : nat => f p * 0) v) = 0.
Proof. induction v as [|x v IH]; simpl; auto. rewrite IH. ring. Qed.
Lemma sum_sq_pos (u : nat -> R) v : 0 <= sumR (map (fun p : nat => sq (u p)) v).
Proof. induction v as [|x v IH]; simpl; [lra|]. pose proof (sq_nonneg (u x)). lra. Qed.
Lemma kernel_x i : off V i -> energy (Ex h s) i = 0 -> sumR (map (fun p : nat => gx p * i p) V) = 0.
Proof.
  intros Oi Z. assert (O0 : off V (fun _ => 0)) by (intros ? _; reflexivity).
  assert (E : dotL g (pv s i (fun _ => 0)) = 0).
  { apply slope_zero; [rewrite pv_length, n_dofs_dims; reflexivity|].
    unfold curv. rewrite (energy_ext _ (cx _) i), (energy_ext _ (cy _) (fun _ => 0)) by apply (D_pv s _ _ Oi O0). rewrite Z, energy_zero. field. }
  rewrite pv_dot in E; auto using g_dims.
  assert (K : sumR (map (fun p : nat => gy p * 0) V) = 0) by apply sum_mul0. lra.
Qed.
Lemma kernel_y i : off V i -> energy (Ey h s) i = 0 -> sumR (map (fun p : nat => gy p * i p) V) = 0.
Proof.
  intros Oi Z. assert (O0 : off V (fun _ => 0)) by (intros ? _; reflexivity).
  assert (E : dotL g (pv s (fun _ => 0) i) = 0).
  { apply slope_zero; [rewrite pv_length, n_dofs_dims; reflexivity|].
    unfold curv. rewrite (energy_ext _ (cx _) (fun _ => 0)), (energy_ext _ (cy _) i) by apply (D_pv s _ _ O0 Oi). rewrite Z, energy_zero. field. }
  rewrite pv_dot in E; auto using g_dims.
  assert (K : sumR (map (fun p : nat => gx p * 0) V) = 0) by apply sum_mul0. lra.
Qed.
Lemma sum_opp (w i : nat -> R) v : sumR (map (fun p : nat => - w p * i p) v) = - sumR (map (fun p : nat => w p * i p) v).
Proof. induction v as [|x v IH]; simpl; [ring|]. rewrite IH. ring. Qed.
Lemma tied_gx : tied (Ex h s) gx /\ tied (Ex h s) (fun p : nat => - gx p).
Proof.
  destruct (D_off s g) as [Ox _]. split; apply (tied_of V).
  - exact Ox.
  - apply kernel_x.
  - intros p Hp. rewrite Ox by auto. ring.
  - intros i Oi Z. rewrite sum_opp, kernel_x by auto. ring.
Qed.
Lemma tied_gy : tied (Ey h s) gy /\ tied (Ey h s) (fun p : nat => - gy p).
Proof.
  destruct (D_off s g) as [_ Oy]. split; apply (tied_of V).
  - exact Oy.
  - apply kernel_y.
  - intros p Hp. rewrite Oy by auto. ring.
  - intros i Oi Z. rewrite sum_opp, kernel_y by auto. ring.
Qed.

(** the slope is at most twice the curvature times the square of the number of points *)
Lemma slope_le : dotL g g <= 2 * (nV * nV) * curv h s (D_of cs g).
Proof.
  destruct (D_off s g) as [Ox Oy]. rewrite g_sq. unfold curv.
  pose proof (poincare V (Ex h s) gx Ox (proj1 tied_gx) (proj2 tied_gx)).
  pose proof (poincare V (Ey h s) gy Oy (proj1 tied_gy) (proj2 tied_gy)).
  lra.
Qed.
(** the curvature is at most the number of constraints times the slope *)
Lemma curv_le : curv h s (D_of cs g) <= INR (length (s_cons s)) * dotL g g.
Proof.
  destruct (D_off s g) as [Ox Oy]. pose proof (points_nodup s nd) as NV.
  unfold curv, Ex, Ey. rewrite !energy_flat. rewrite <- (sum_const (dotL g g)).
  assert (G : forall k, In k (s_cons s) -> (energy (xedges h (getK h k)) gx + energy (yedges h (getK h k)) gy) / 2 <= dotL g g).
  { intros k Hk. rewrite g_sq. set (Sx := sumR (map (fun p : nat => sq (gx p)) V)). set (Sy := sumR (map (fun p : nat => sq (gy p)) V)).
    assert (Px : 0 <= Sx) by apply sum_sq_pos. assert (Py : 0 <= Sy) by apply sum_sq_pos.
    assert (A : forall E, (length E <= 1)%nat -> energy E gx <= 2 * Sx).
    { intros [|e [|]] L; simpl in L; try lia; unfold energy, sumR; cbn [map fold_right]; [lra|].
      pose proof (edge_le V gx e NV Ox) as Q. fold Sx in Q. lra. }
    assert (B : forall E, (length E <= 1)%nat -> energy E gy <= 2 * Sy).
    { intros [|e [|]] L; simpl in L; try lia; unfold energy, sumR; cbn [map fold_right]; [lra|].
      pose proof (edge_le V gy e NV Oy) as Q. fold Sy in Q. lra. }
    assert (A' : energy (xedges h (getK h k)) gx <= 2 * Sx) by (apply A; destruct (getK h k); simpl; lia).
    assert (B' : energy (yedges h (getK h k)) gy <= 2 * Sy) by (apply B; destruct (getK h k); simpl; lia). lra. }
  pose proof (sum_le _ _ (s_cons s) G) as Q.
  rewrite (sum_half (fun k => energy (xedges h (getK h k)) gx) (fun k => energy (yedges h (getK h k)) gy)) in Q. exact Q.
Qed.

(** with a solution, the loss is at most half the slope times the square of the number of points *)
Lemma loss_le y : length y = get_n_dofs h s -> dotL g y * dotL g y = 2 * l * (2 * l) -> l = curv h s (D_of cs y) -> 2 * l <= nV * nV * dotL g g.
Proof.
  intros Ly E1 E2. rewrite n_dofs_dims in Ly. destruct (D_off s y) as [Ox Oy].
  destruct (tie V (Ex h s) _ _ (le_n _) Ox) as (zx & Zx & Sx & Tx & Tx').
  destruct (tie V (Ey h s) _ _ (le_n _) Oy) as (zy & Zy & Sy & Ty & Ty').
  pose proof (poincare V (Ex h s) zx Zx Tx Tx') as Px. pose proof (poincare V (Ey h s) zy Zy Ty Ty') as Py.
  assert (Q : energy (Ex h s) zx + energy (Ey h s) zy = 2 * l).
  { rewrite <- (same_energy _ _ _ Sx), <- (same_energy _ _ _ Sy), E2. unfold curv. field. }
  set (z := pv s zx zy).
  assert (Dz : dotL g z = dotL g y).
  { unfold z. rewrite pv_dot by auto using g_dims. rewrite (dot_pts y Ly).
    pose proof (kernel_x (fun p : nat => cx (D_of cs y) p - zx p)) as Kx. pose proof (kernel_y (fun p : nat => cy (D_of cs y) p - zy p)) as Ky.
    assert (L : forall (a b c : nat -> R) v, sumR (map (fun p : nat => a p * (b p - c p)) v) = sumR (map (fun p : nat => a p * b p) v) - sumR (map (fun p : nat => a p * c p) v)).
    { intros a b c v. induction v as [|x v IH]; simpl; [ring|]. rewrite IH. ring. }
    assert (Z : forall E (u w : nat -> R), same_diff E u w -> energy E (fun p : nat => u p - w p) = 0).
    { intros E u w S. unfold energy. assert (G : forall e, In e E -> sq (u (fst e) - w (fst e) - val (fun p : nat => u p - w p) (snd e)) = 0).
      { intros e He. specialize (S e He). assert (Ev : val (fun p : nat => u p - w p) (snd e) = val u (snd e) - val w (snd e)) by (destruct (snd e); simpl; ring).
        rewrite Ev. replace (u (fst e) - w (fst e) - _) with 0 by lra. unfold sq. ring. }
      clear -G. induction E as [|e E IH]; simpl; auto. rewrite G by now left. rewrite IH by (intros; apply G; now right). ring. }
    assert (Kx1 := Kx ltac:(intros p Hp; rewrite Ox, Zx by auto; ring) (Z _ _ _ Sx)).
    assert (Ky1 := Ky ltac:(intros p Hp; rewrite Oy, Zy by auto; ring) (Z _ _ _ Sy)).
    rewrite (L gx (cx (D_of cs y)) zx) in Kx1. rewrite (L gy (cy (D_of cs y)) zy) in Ky1. lra. }
  assert (Lz : length z = dims cs) by apply pv_length.
  assert (C := dotL_cauchy g z). rewrite g_dims, Lz in C. specialize (C eq_refl). rewrite Dz in C.
  assert (Zz : dotL z z = sumR (map (fun p : nat => sq (zx p)) V) + sumR (map (fun p : nat => sq (zy p)) V)).
  { unfold z at 2. rewrite pv_dot by auto. f_equal; f_equal; apply map_ext; intros p; unfold sq; f_equal; apply (D_pv s _ _ Zx Zy). }
  assert (B : dotL z z <= nV * nV * (2 * l)) by (rewrite Zz, <- Q; lra).
  assert (Pg := dotL_sq_nonneg g). assert (Pl : 0 <= l) by (rewrite E2; apply curv_nonneg).
  assert (M : dotL g g * dotL z z <= dotL g g * (nV * nV * (2 * l))) by (apply Rmult_le_compat_l; auto).
  rewrite E1 in C.
  destruct Pl as [Pl|Z0]; [|rewrite <- Z0; pose proof (pos_INR (length V)); nra].
  apply (Rmult_le_reg_r (2 * l)); lra.
Qed.
End One.
