(** * Statements of C25 and C27 in binary64 *)
From Coq Require Import List ZArith NArith Arith Bool Lia Floats.SpecFloat.
From Verif Require Import Arith Vec Prim Cons Sketch Solve Api Spec SerdeSpec SolverSpec NumSpec NumLemmas ArithF FloatLemmas
  HeapLemmas SolveLemmas BookLemmas WfLemmas DataLemmas SpecLemmas GradLemmas SearchLemmas StepLemmas SolverForms MonoFloat SolverWitness DecompExamples.
Import ListNotations.

Lemma C25_steps_lemma : forall L, let A := ArithF L in forall s (h hn : heap spec_float) n,
  libm64 L -> valid h s -> Forall canonical (heap_nums h) -> gd_steps s h n hn -> 0 < n ->
  SFleb (get_loss hn s) (get_loss h s) = true.
Proof.
  intros L A s h hn n HL V Hh Hs. apply hV_nums in Hh. exact (proj2 (gd_mono L HL s h hn n V Hh Hs)).
Qed.
Lemma C25_binary64_lemma : forall L, let A := ArithF L in
  forall (pinv : mat spec_float -> spec_float -> pinv_res (mat spec_float)) s P (h h' : heap spec_float),
  libm64 L -> valid h s -> Forall canonical (heap_nums h) ->
  solve pinv (GradientBased P) s h = (h', Val (SOk tt)) ->
  exists n, gd_run s P h = (h', Val (SOk n)) /\
    (n = 0 -> get_loss h' s = get_loss h s) /\ (0 < n -> SFleb (get_loss h' s) (get_loss h s) = true).
Proof.
  intros L A pinv s P h h' HL V Hh E. apply hV_nums in Hh. apply gd_solve in E as (r & E & Hr).
  destruct r as [[n|e']|]; try discriminate. exists n. split; [exact E|].
  apply gd_run_spec in E as (m & hn & _ & Hs & -> & g & Hg & _).
  rewrite (sd_get_loss _ _ s (gradient_sd _ _ _ _ Hg)). exact (gd_mono L HL s h hn m V Hh Hs).
Qed.
Lemma C25_canonical_lemma : forall L, let A := ArithF L in
  forall (pinv : mat spec_float -> spec_float -> pinv_res (mat spec_float)) os rs (h : heap spec_float) s,
  libm64 L -> pinv64 pinv -> Forall (fun o => Forall canonical (op_nums o)) os -> run pinv init os rs (h, s) ->
  Forall canonical (heap_nums h) /\ Forall (fun r => Forall canonical (ret_nums r)) rs.
Proof.
  intros L A pinv os rs h s HL HP Ho R. destruct (run_V canonical (canonical_closed L HL) pinv HP init os rs (h, s)) as [H1 H2].
  - repeat split; constructor.
  - exact Ho.
  - exact R.
  - split; [apply hV_nums; exact H1 | exact H2].
Qed.
Lemma C27_steps_lemma : forall L, let A := ArithF L in forall s (h hn : heap spec_float) n b d H,
  libm64 L -> valid h s -> Forall canonical (heap_nums h) -> bfgs_steps s h n 0 b hn d H ->
  get_data hn s = d /\ (0 < n -> SFleb (get_loss hn s) (get_loss h s) = true).
Proof.
  intros L A s h hn n b d H HL V Hh Hs. apply hV_nums in Hh. destruct (bfgs_mono L HL s h hn n b d H V Hh Hs) as [E1 [_ E2]]. split; assumption.
Qed.
Lemma C27_binary64_lemma : forall L, let A := ArithF L in forall s P (h h' : heap spec_float) it,
  libm64 L -> valid h s -> Forall canonical (heap_nums h) -> bfgs_run s P h = (h', Val (SOk it)) ->
  (forall n k b hn d H, bfgs_steps s h n k b hn d H -> k = 0) ->
  (it = 0%N -> get_loss h' s = get_loss h s) /\ ((0 < it)%N -> SFleb (get_loss h' s) (get_loss h s) = true).
Proof.
  intros L A s P h h' it HL V Hh E Hk. apply hV_nums in Hh.
  apply bfgs_run_spec in E as (n & k & b & hn & d & H & _ & Hs & -> & Hc).
  pose proof (Hk _ _ _ _ _ _ Hs) as ->. destruct (bfgs_mono L HL s h hn n b d H V Hh Hs) as [_ [E1 E2]].
  assert (El : get_loss h' s = get_loss hn s).
  { destruct Hc as [[_ ->]|[[_ ->]|(g & Hg & _)]]; auto. exact (sd_get_loss _ _ s (gradient_sd _ _ _ _ Hg)). }
  rewrite El. split; intros; [apply E1 | apply E2]; lia.
Qed.

(** ** An accepted step that leaves the loss unchanged: the loss of the second point is absorbed by rounding *)
Definition abs_heap : heap spec_float :=
  let z := S754_zero false in mkHeap [mkPoint z z z z; mkPoint (lit64 1 3) z z z] [] [] []
    [FixPoint 0 (lit64 10000000000 0) z; FixPoint 0 (lit64 (-10000000000) 0) z; FixPoint 1 z z].
Definition abs_sketch : sketch := mkSketch [(0%N, PPoint 0); (1%N, PPoint 1)] 2%N [0; 1; 2].
Lemma abs_run L : let A := ArithF L in exists rs,
  run nopinv init [AddPoint2 (lit64 0 0) (lit64 0 0); AddPoint2 (lit64 1 3) (lit64 0 0);
    Constrain (FixPoint 0 (lit64 10000000000 0) (lit64 0 0)); Constrain (FixPoint 0 (lit64 (-10000000000) 0) (lit64 0 0));
    Constrain (FixPoint 1 (lit64 0 0) (lit64 0 0))] rs (abs_heap, abs_sketch).
Proof. exists [RetLoc 0; RetLoc 1; RetLoc 0; RetLoc 1; RetLoc 2]. goF. Qed.
Lemma C25_strict_witness : forall L, let A := ArithF L in
  forall (pinv : mat spec_float -> spec_float -> pinv_res (mat spec_float)), exists s (h h' : heap spec_float),
  valid h s /\ Forall canonical (heap_nums h) /\ gd_run s gd_default h = (h', Val (SOk 1)) /\
  solve pinv (GradientBased gd_default) s h = (h', Val (SOk tt)) /\ get_loss h' s = get_loss h s /\ get_data h' s <> get_data h s.
Proof.
  intros L A pinv. exists abs_sketch, abs_heap, (fst (gd_run abs_sketch gd_default abs_heap)).
  split. { destruct (abs_run L) as [rs R]. exact (reachable_valid nopinv _ _ _ R eq_refl). }
  split. { apply Forall_forall; intros x Hx; vm_compute in Hx; intuition (subst; reflexivity). }
  assert (E : snd (gd_run abs_sketch gd_default abs_heap) = Val (SOk 1)) by (vm_compute; reflexivity).
  split; [rewrite <- E; apply surjective_pairing|]. split.
  { unfold solve, mbind. destruct (gd_run abs_sketch gd_default abs_heap) as [h' r]. simpl in E. subst r. reflexivity. }
  split; [vm_compute; reflexivity|]. intros X. vm_compute in X. discriminate.
Qed.

(** ** A BFGS run without failed searches *)
Definition near_heap : heap spec_float := fix_heap (lit64 3 0) (lit64 4 0) (lit64 1 0) (lit64 5 1).
#[local] Instance ZA : Arith spec_float := ArithF zlibm.
Definition val_of {T} (d : T) (o : out T) : T := match o with Val x => x | Panic => d end.
Definition near_g := val_of [] (snd (get_gradient fix_sketch near_heap)).
Definition near_h1 := fst (get_gradient fix_sketch near_heap).
Definition near_H := @mident spec_float ZA 2.
Definition near_p := mvec (mneg near_H) near_g.
Definition near_ls := line_search_wolfe fix_sketch near_p near_g near_h1.
Definition near_d := vadd (get_data near_heap fix_sketch) (vscale (lit64 1 0) near_p).
Definition near_h3 := fst (set_data fix_sketch near_d (fst near_ls)).
Definition near_h4 := fst (get_gradient fix_sketch near_h3).
Definition near_g4 := val_of [] (snd (get_gradient fix_sketch near_h3)).
Definition near_s := vscale (lit64 1 0) near_p.
Definition near_y := vsub near_g4 near_g.
Definition near_H' := bfgs_update near_H near_s near_y (bfgs_sdoty near_s near_y).
Lemma near_e1 : get_gradient fix_sketch near_heap = (near_h1, Val near_g). Proof. vm_compute. reflexivity. Qed.
Lemma near_e2 : near_ls = (fst near_ls, Val (LOk (lit64 1 0))). Proof. vm_compute. reflexivity. Qed.
Lemma near_e3 : get_gradient fix_sketch near_h3 = (near_h4, Val near_g4). Proof. vm_compute. reflexivity. Qed.
Lemma near_e4 : get_gradient fix_sketch near_h4 = (near_h4, Val near_g4). Proof. vm_compute. reflexivity. Qed.
Lemma near_e5 : line_search_wolfe fix_sketch (mvec (mneg near_H') near_g4) near_g4 near_h4 = (near_h4, Val (LErr NotDescentDirection)).
Proof. vm_compute. reflexivity. Qed.
Lemma val_inj {S T} (a c : S) (b d : T) : (a, Val b) = (c, Val d) -> a = c /\ b = d.
Proof. intros E. now injection E. Qed.
Lemma near_states n k b hn d H : bfgs_steps fix_sketch near_heap n k b hn d H ->
  k = 0 /\ ((hn = near_heap /\ d = get_data near_heap fix_sketch /\ H = near_H) \/ (hn = near_h4 /\ H = near_H')).
Proof.
  induction 1 as [|n r b hn d H h1' g1 alpha h2' h3' h4' g' Hs IH Eg1 El1 Ed1 Eg1'|n r hn d H h1' g1 h2' Hs IH Eg1 El1].
  - split; [reflexivity|]. left. repeat split.
  - destruct IH as [-> [(-> & -> & ->)|(-> & ->)]].
    + rewrite near_e1 in Eg1. apply val_inj in Eg1 as [<- <-]. change (near_ls = (h2', Val (LOk alpha))) in El1.
      pose proof near_e2 as X. rewrite El1 in X. apply val_inj in X as [_ X]. injection X as ->.
      change (set_data fix_sketch near_d h2' = (h3', Val tt)) in Ed1.
      assert (E3 : h3' = near_h3) by (unfold near_h3; rewrite El1; cbn [fst]; now rewrite Ed1). subst h3'.
      rewrite near_e3 in Eg1'. apply val_inj in Eg1' as [<- <-]. split; [reflexivity|]. right. split; reflexivity.
    + exfalso. rewrite near_e4 in Eg1. apply val_inj in Eg1 as [<- <-]. rewrite near_e5 in El1. apply val_inj in El1 as [_ El1]. discriminate El1.
  - exfalso. destruct IH as [-> [(-> & -> & ->)|(-> & ->)]].
    + rewrite near_e1 in Eg1. apply val_inj in Eg1 as [<- <-]. change (near_ls = (h2', Val (LErr SearchFailed))) in El1.
      pose proof near_e2 as X. rewrite El1 in X. apply val_inj in X as [_ X]. discriminate X.
    + rewrite near_e4 in Eg1. apply val_inj in Eg1 as [<- <-]. rewrite near_e5 in El1. apply val_inj in El1 as [_ El1]. discriminate El1.
Qed.
Lemma near_step : exists hn d H, bfgs_steps fix_sketch near_heap 1 0 false hn d H.
Proof.
  exists near_h4, near_d, near_H'.
  apply (bfgs_accept fix_sketch near_heap 0 0 false near_heap (get_data near_heap fix_sketch) near_H near_h1 near_g (lit64 1 0) (fst near_ls) near_h3 near_h4 near_g4).
  - exact (bfgs_start fix_sketch near_heap).
  - exact near_e1.
  - exact near_e2.
  - vm_compute. reflexivity.
  - exact near_e3.
Qed.
