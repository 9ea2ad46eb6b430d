(** * Cells no constraint depends on, in binary64 (proofs for C31) *)
From Coq Require Import List ZArith NArith Arith Bool Lia Floats.SpecFloat.
From Verif Require Import Arith Vec Prim Cons Sketch Solve Api Spec SolverSpec NumSpec ArithF FloatLemmas RestSpec
  HeapLemmas SolveLemmas WfLemmas DataLemmas SpecLemmas GradLemmas SearchLemmas RestLemmas.
Import ListNotations.

(** ** set_data writes a cell completely or not at all *)
Section G.
Context {F : Type} {A : Arith F}.
Lemma prim_set_panic_heap c d (h h' : heap F) : prim_set_data c d h = (h', Panic) -> h' = h.
Proof.
  destruct c; simpl; unfold Point2_set_data, Arc_set_data, Circle_set_data, mbind, massert, mret;
  try destruct (all_finite d && _); intros E; try discriminate; now injection E as <-.
Qed.
Lemma loop_either cs : NoDup cs -> forall d (h : heap F) c, In c cs -> Forall (cell_ok h) cs -> length d = dims cs ->
  prim_data (fst (set_data_loop cs d h)) c = prim_data h c \/ prim_data (fst (set_data_loop cs d h)) c = chunk cs d c.
Proof.
  induction cs as [|x cs IH]; intros Hn d h c Hc Ho Hl; [destruct Hc|]. simpl.
  unfold dims in Hl; simpl in Hl. fold (dims cs) in Hl. rewrite prim_data_dim. unfold mbind.
  assert (L1 : length (firstn (dim x) d) = dim x) by (apply firstn_length_le; lia).
  inversion Hn as [|? ? Hx Hn']; inversion Ho as [|? ? Hox Ho']; subst.
  pose proof (set_data_other x (firstn (dim x) d) h) as Oth.
  pose proof (fun c' => prim_set_cell_ok x (firstn (dim x) d) h c') as Kc.
  destruct (prim_set_data x (firstn (dim x) d) h) as [h1 [[]|]] eqn:E; cbn [fst] in *.
  2:{ apply prim_set_panic_heap in E as ->. now left. }
  destruct (prim_set_get _ _ _ _ E Hox L1) as [G _].
  destruct (pcell_eqb x c) eqn:Ex.
  - apply pcell_eqb_eq in Ex as <-. right. rewrite loop_other; auto.
  - assert (Hne : x <> c) by (intros ->; rewrite pcell_eqb_refl in Ex; discriminate).
    destruct Hc as [->|Hc]; [congruence|].
    rewrite <- (Oth c) by congruence. apply IH; auto.
    + eapply Forall_impl; [|exact Ho']. auto.
    + rewrite skipn_length; lia.
Qed.
Lemma set_either s d (h : heap F) c : valid h s -> In c (cells s) ->
  prim_data (fst (set_data s d h)) c = prim_data h c \/ prim_data (fst (set_data s d h)) c = chunk (cells s) d c.
Proof.
  intros V Hc. destruct (Nat.eq_dec (length d) (get_n_dofs h s)) as [E|E].
  2:{ rewrite set_data_wrong_length by auto. now left. }
  unfold set_data, mbind, massert. rewrite E, Nat.eqb_refl. cbn [mret]. apply loop_either; auto.
  - apply V.
  - now apply valid_live.
  - now rewrite E, n_dofs_dims.
Qed.
End G.

(** ** Zeros and NaN *)
Section Z.
Variable L : libm.
Local Instance A : Arith spec_float := ArithF L.
Definition zero64 (x : spec_float) : Prop := exists b, x = S754_zero b.
Definition Z (x : spec_float) : Prop := x = S754_nan \/ zero64 x.
Lemma Z_zero b : Z (S754_zero b). Proof. right; eexists; reflexivity. Qed.
Lemma Z_nan : Z S754_nan. Proof. now left. Qed.
Ltac zcase H := destruct H as [->|[? ->]].
Lemma Z_mul_r x y : Z y -> Z (fmul x y).
Proof. intros H. zcase H; destruct x as [| | |]; cbn; auto using Z_zero, Z_nan. Qed.
Lemma Z_mul_l x y : Z x -> Z (fmul x y).
Proof. intros H. zcase H; destruct y as [| | |]; cbn; auto using Z_zero, Z_nan. Qed.
Lemma Z_add x y : Z x -> Z y -> Z (fadd x y).
Proof. intros H K. zcase H; zcase K; cbn; auto using Z_zero, Z_nan. destruct (Bool.eqb _ _); apply Z_zero. Qed.
Lemma Z_neg x : Z x -> Z (fneg x).
Proof. intros H. zcase H; cbn; auto using Z_zero, Z_nan. Qed.
Lemma Z_sub x y : Z x -> Z y -> Z (fsub x y).
Proof. intros H K. zcase H; zcase K; cbn; auto using Z_zero, Z_nan. destruct (Bool.eqb _ _); apply Z_zero. Qed.
Lemma Z_fin x : Z x -> ffin x = true -> zero64 x.
Proof. intros [->|H]; [discriminate|auto]. Qed.
Lemma Z_fold l : forall x, Z x -> Forall Z l -> Z (fold_left fadd l x).
Proof. induction l as [|y l IH]; intros x Hx Hl; simpl; auto. inversion Hl; subst. apply IH; auto. now apply Z_add. Qed.
Lemma Z_sum1 l : Forall Z l -> Z (sum1 l).
Proof. intros H. destruct H; [apply Z_zero|]. now apply Z_fold. Qed.

(** ** Masks: the columns of the cell *)
Fixpoint rowZ (mk : list bool) (r : list spec_float) : Prop :=
  match mk, r with
  | _, [] => True
  | [], x :: r' => Z x /\ rowZ [] r'
  | b :: mk', x :: r' => (b = true \/ Z x) /\ rowZ mk' r'
  end.
Fixpoint vecZ (mk : list bool) (v : list spec_float) : Prop :=
  match mk, v with b :: mk', x :: v' => (b = true -> Z x) /\ vecZ mk' v' | _, _ => True end.
Lemma row_nil mk : rowZ mk []. Proof. destruct mk; exact I. Qed.
Lemma row_prod : forall mk r v, rowZ mk r -> vecZ mk v -> Forall Z (map2 fmul r v).
Proof.
  induction mk as [|b mk IH]; intros r v Hr Hv.
  - revert v Hv. induction r as [|x r IHr]; intros [|y v] Hv; simpl; try constructor; destruct Hr; [now apply Z_mul_l | now apply IHr].
  - destruct r as [|x r]; [constructor|]. destruct v as [|y v]; [constructor|]. simpl in *. destruct Hr as [Hx Hr], Hv as [Hy Hv].
    constructor; [|now apply IH]. destruct Hx as [->|Hx]; [apply Z_mul_r; auto | now apply Z_mul_l].
Qed.
Lemma row_neg : forall mk r, rowZ mk r -> rowZ mk (vneg r).
Proof.
  induction mk as [|b mk IH]; intros r Hr.
  - induction r as [|x r IHr]; simpl; auto. destruct Hr. split; [now apply Z_neg | now apply IHr].
  - destruct r as [|x r]; simpl in *; auto. destruct Hr as [Hx Hr]. split; [|now apply IH]. destruct Hx; auto using Z_neg.
Qed.
Lemma Z_ger a xi q x : Z xi -> Z x -> Z ((a *f q) *f xi +f f1 *f x).
Proof. intros H1 H2. apply Z_add; now apply Z_mul_r. Qed.
Lemma row_ger a xi : Z xi -> forall mk y r, rowZ mk r -> rowZ mk (map2 (fun yj hij => (a *f yj) *f xi +f f1 *f hij) y r).
Proof.
  intros Hz. induction mk as [|b mk IH]; intros y r Hr.
  - revert r Hr. induction y as [|q y IHy]; intros [|x r] Hr; cbn [map2 rowZ]; auto. destruct Hr. split; [|now apply IHy].
    now apply Z_ger.
  - destruct r as [|x r], y as [|q y]; cbn [map2 rowZ]; auto. destruct Hr as [Hx Hr]. split; [|now apply IH].
    destruct Hx as [->|Hx]; auto. right. now apply Z_ger.
Qed.

Section C.
Variables (cs : list pcell) (c : pcell).
Hypothesis Nd : NoDup cs.
Definition mask (l : list pcell) : list bool := flat_map (fun x => repeat (pcell_eqb x c) (dim x)) l.
Lemma vec_none l : ~ In c l -> forall v, vecZ (mask l) v.
Proof.
  intros H. assert (G : Forall (fun b => b = false) (mask l)).
  { induction l as [|x l IH]; simpl; [constructor|]. apply Forall_app. split; [|apply IH; simpl in H; tauto].
    apply Forall_forall. intros b Hb. apply repeat_spec in Hb as ->. apply pcell_eqb_neq. intros ->. apply H. now left. }
  induction G as [|b mk Hb G IH]; intros v; [exact I|]. destruct v as [|x v]; simpl; auto. split; auto. now rewrite Hb.
Qed.
Lemma vec_skip k mk : forall v, vecZ mk (skipn k v) -> vecZ (repeat false k ++ mk) v.
Proof. induction k as [|k IH]; intros [|x v] H; simpl in *; auto. split; [discriminate|]. now apply IH. Qed.
Lemma vec_take k mk : forall v, Forall Z (firstn k v) -> vecZ mk (skipn k v) -> vecZ (repeat true k ++ mk) v.
Proof. induction k as [|k IH]; intros [|x v] H H2; simpl in *; auto. inversion H; subst. split; auto. Qed.
Lemma vec_chunk : forall v, Forall Z (chunk cs v c) -> vecZ (mask cs) v.
Proof.
  induction Nd as [|x l Hx Hl IH]; intros v H; [exact I|]. simpl in *. destruct (pcell_eqb x c) eqn:E.
  - apply pcell_eqb_eq in E as ->. apply vec_take; auto. now apply vec_none.
  - apply vec_skip. now apply IH.
Qed.
(** the rows of the cell *)
Definition rowsZ (m : list (list spec_float)) : Prop := Forall (rowZ (mask cs)) (chunk cs m c).
Lemma Forall_map_ {X Y} (P : Y -> Prop) (f : X -> Y) l : Forall (fun x => P (f x)) l -> Forall P (map f l).
Proof. induction 1; simpl; constructor; auto. Qed.
Lemma Forall_map2 {X Y W} (P : X -> Prop) (Q : Y -> Prop) (R : W -> Prop) (f : X -> Y -> W) : (forall x y, P x -> Q y -> R (f x y)) ->
  forall u v, Forall P u -> Forall Q v -> Forall R (map2 f u v).
Proof. intros H u v Hu. revert v. induction Hu; intros v Hv; simpl; [constructor|]. destruct Hv; constructor; auto. Qed.
Lemma rows_mvec m v : rowsZ m -> Forall Z (chunk cs v c) -> Forall Z (chunk cs (mvec m v) c).
Proof.
  intros Hm Hv. unfold mvec. rewrite chunk_map. apply Forall_map_. eapply Forall_impl; [|exact Hm].
  intros r Hr. apply Z_sum1. eapply row_prod; [exact Hr | now apply vec_chunk].
Qed.
Lemma rows_neg m : rowsZ m -> rowsZ (mneg m).
Proof. intros H. unfold rowsZ, mneg. rewrite chunk_map. apply Forall_map_. eapply Forall_impl; [|exact H]. apply row_neg. Qed.
Lemma rows_ger a x y m : Forall Z (chunk cs x c) -> rowsZ m -> rowsZ (mger a x y f1 m).
Proof.
  intros Hx Hm. unfold rowsZ, mger. rewrite chunk_map2. eapply Forall_map2; [|exact Hx|exact Hm].
  intros xi r H1 H2. now apply row_ger.
Qed.
Lemma rows_upd m sv y sy : Forall Z (chunk cs sv c) -> Forall Z (chunk cs y c) -> rowsZ m -> rowsZ (bfgs_update m sv y sy).
Proof.
  intros Hs Hy Hm. unfold bfgs_update. apply rows_ger; auto. apply rows_ger; [now apply rows_mvec|]. now apply rows_ger.
Qed.
Lemma mask_at : forall l i n k, In i (chunk l (seq k n) c) -> k <= i /\ nth_error (mask l) (i - k) = Some true.
Proof.
  induction l as [|x l IH]; intros i n k H; [destruct H|]. simpl in *.
  assert (Sk : forall d, skipn d (seq k n) = seq (k + d) (n - d)).
  { clear. intros d. revert k n. induction d as [|d IH]; intros k n; [simpl; f_equal; lia|].
    destruct n as [|n]; simpl; auto. rewrite IH. f_equal; lia. }
  destruct (pcell_eqb x c) eqn:E.
  - assert (Hi : k <= i < k + dim x).
    { assert (G : forall d k n, In i (firstn d (seq k n)) -> k <= i < k + d).
      { clear. induction d as [|d IH]; intros k n H; simpl in H; [destruct H|]. destruct n as [|n]; [destruct H|].
        destruct H as [<-|H]; [lia|]. apply IH in H. lia. }
      now apply G in H. }
    split; [lia|]. rewrite nth_error_app1 by (rewrite repeat_length; lia). 
    rewrite nth_error_nth' with (d := true) by (rewrite repeat_length; lia). now rewrite nth_repeat.
  - rewrite Sk in H. apply IH in H as [H1 H2]. split; [lia|].
    rewrite nth_error_app2 by (rewrite repeat_length; lia). rewrite repeat_length. rewrite <- H2. f_equal. lia.
Qed.
Lemma ident_row i : forall mk k n, k <= i -> nth_error mk (i - k) = Some true ->
  rowZ mk (map (fun j => if Nat.eqb i j then f1 else f0) (seq k n)).
Proof.
  assert (G : forall mk k n, i < k -> rowZ mk (map (fun j => if Nat.eqb i j then f1 else f0) (seq k n))).
  { induction mk as [|b mk IH]; intros k n Hk.
    - revert k Hk. induction n as [|n IHn]; intros k Hk; simpl; auto. split; [|apply IHn; lia].
      destruct (Nat.eqb_spec i k); [lia | apply Z_zero].
    - destruct n as [|n]; simpl; auto. split; [|apply IH; lia]. destruct (Nat.eqb_spec i k); [lia | right; apply Z_zero]. }
  induction mk as [|b mk IH]; intros k n Hk E; [destruct (i - k); discriminate|]. destruct n as [|n]; simpl; auto.
  destruct (Nat.eqb_spec i k) as [->|Hn].
  - rewrite Nat.sub_diag in E. injection E as ->. split; auto.
  - split; [right; apply Z_zero|]. apply IH; [lia|]. replace (i - k) with (Datatypes.S (i - Datatypes.S k)) in E by lia. exact E.
Qed.
Lemma rows_ident n : rowsZ (mident n).
Proof.
  unfold rowsZ, mident. rewrite chunk_map. apply Forall_map_. apply Forall_forall. intros i Hi.
  apply mask_at in Hi as [H1 H2]. apply ident_row; [lia | exact H2].
Qed.
End C.

(** ** The step sizes of the line search *)
Definition pos64 (a : spec_float) : bool := match a with S754_finite false _ _ => true | _ => false end.
Fixpoint steps_ok (n : nat) (a : spec_float) : bool :=
  pos64 a && match n with O => true | Datatypes.S n' => steps_ok n' (fmul a (flit 15 1)) && steps_ok n' (fmul a fhalf) end.
Lemma steps_15 : steps_ok 15 f1 = true. Proof. vm_compute. reflexivity. Qed.
End Z.
