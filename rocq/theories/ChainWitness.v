(** * A dimension chain on which both line-search solvers give up (C70) *)
From Coq Require Import List ZArith NArith Arith Bool Lia SpecFloat.
From Verif Require Import Arith Vec Prim Cons Sketch Solve Api ArithF Spec SolverSpec LinearSpec
  HeapLemmas DataLemmas WfLemmas SpecLemmas SearchLemmas SolverWitness.
Import ListNotations.

(** ** running a list of calls by computation *)
Section Exec.
Context {F : Type} {A : Arith F}.
Variable pinv : mat F -> F -> pinv_res (mat F).
Definition cell_okb (h : heap F) (c : pcell) : bool :=
  match c with
  | PPoint l => l <? length (h_pts h) | PLine l => l <? length (h_lines h)
  | PArc l => l <? length (h_arcs h) | PCircle l => l <? length (h_circs h)
  end.
Lemma cell_okb_ok h c : cell_okb h c = true -> cell_ok h c.
Proof. destruct c; simpl; apply Nat.ltb_lt. Qed.
Definition op_okb (h : heap F) (o : op F) : bool :=
  match o with
  | AddPoint2 _ _ => true
  | AddLine a b => cell_okb h (PPoint a) && cell_okb h (PPoint b)
  | Constrain c => forallb (cell_okb h) (con_refs c)
  | _ => false
  end.
Lemma op_okb_ok h o : op_okb h o = true -> op_ok h o.
Proof.
  destruct o; try discriminate; unfold op_okb, op_ok; auto.
  - intros H. apply andb_true_iff in H as [H1 H2]. split; now apply cell_okb_ok.
  - intros H. rewrite forallb_forall in H. apply Forall_forall. intros x Hx. now apply cell_okb_ok, H.
Qed.
Fixpoint exec (st : state F) (os : list (op F)) : option (state F * list (ret F)) :=
  match os with
  | [] => Some (st, [])
  | o :: os => if op_okb (fst st) o then
      let (st1, r) := step pinv st o in
      match exec st1 os with Some (st2, rs) => Some (st2, r :: rs) | None => None end
    else None
  end.
Lemma exec_run os : forall st st' rs, exec st os = Some (st', rs) -> run pinv st os rs st'.
Proof.
  induction os as [|o os IH]; intros st st' rs E; simpl in E; [injection E as <- <-; constructor|].
  destruct (op_okb (fst st) o) eqn:Eo; [|discriminate]. destruct (step pinv st o) as [st1 r] eqn:Es.
  destruct (exec st1 os) as [[st2 rs2]|] eqn:Ee; [|discriminate]. injection E as <- <-.
  econstructor; eauto. now apply op_okb_ok.
Qed.
End Exec.

(** 90 points on the x axis; the first is fixed at the origin and each is to be 1 to the right
    of the one before.  They start at 1000 sin ((i + 1) PI / 181) + i (here in units of 10^-12). *)
Definition chain_n : nat := 90.
Definition chain_x : list Z :=
  [17355994012102; 35706759475182; 54047069415335; 72371700008416; 90675432153734; 108953053046322;
   127199357747312; 145409150751940; 163577247554708; 181698476211233; 199767678896310;
   217779713457727; 235729454965354; 253611797255041; 271421654466872; 289153962577292;
   306803680924663; 324365793727778; 341835311596884; 359207273036747; 376476745941324;
   393638829079570; 410688653571954; 427621384357224; 444432221648981; 461116402381638;
   477669201645298; 494085934109158; 510361955432975; 526492663666189; 542473500634277;
   558299953311916; 573967555182547; 589471887583929; 604808581039271; 619973316573555;
   634961827014642; 649769898278766; 664393370640045; 678828139983610; 693070159041982;
   707115438614328; 720960048768215; 734600120023521; 748031844518121; 761251477155025;
   774255336730597; 787039807043529; 799601337984234; 811936446604327; 824041718165879;
   835913807170109; 847549438365236; 858945407733153; 870098583454647; 881005906852876;
   891664393314798; 902071133190301; 912223292668738; 922118114632630; 931752919488250;
   941125105972860; 950232151938353; 959071615111055; 967641133827470; 975938427745737;
   983961298532591; 991707630525617; 999175391370605; 1006362632633795; 1013267490388855;
   1019888185778393; 1026223025549845; 1032270402565570; 1038028796287006; 1043496773232740;
   1048672987410345; 1053556180721867; 1058145183342831; 1062438914074654; 1066436380670357;
   1070136680133488; 1073538998990147; 1076642613534053; 1079446890044556; 1081951284977556;
   1084155345129240; 1086058707772613; 1087661100766774; 1088962342638896]%Z.
Definition chain_ops : list (op spec_float) :=
  map (fun z => AddPoint2 (lit64 z 12) (S754_zero false)) chain_x ++
  Constrain (FixPoint 0 (S754_zero false) (S754_zero false)) ::
  map (fun i => Constrain (HorizontalDistance i (S i) (lit64 1 0))) (seq 0 (chain_n - 1)).
Definition chain_goal : list spec_float := flat_map (fun i => [lit64 (Z.of_nat i) 0; S754_zero false]) (seq 0 chain_n).

Section W.
Variable L : libm.
Let A := ArithF L.
#[local] Existing Instance A.
Definition chain_end : option (state spec_float * list (ret spec_float)) := exec nopinv init chain_ops.
Definition chain_st : state spec_float := match chain_end with Some (st, _) => st | None => init end.
Definition chain_rets : list (ret spec_float) := match chain_end with Some (_, rs) => rs | None => [] end.
Definition chain_h : heap spec_float := fst chain_st.
Definition chain_s : sketch := snd chain_st.
Lemma chain_run (pinv : mat spec_float -> spec_float -> pinv_res (mat spec_float)) : run pinv init chain_ops chain_rets (chain_h, chain_s).
Proof.
  assert (E : exec pinv init chain_ops = Some ((chain_h, chain_s), chain_rets)) by (vm_compute; reflexivity).
  exact (exec_run pinv _ _ _ _ E).
Qed.
Lemma valid_of pinv os rs h s : run pinv init os rs (h, s) -> few (length os) -> valid h s.
Proof. intros H E. exact (reachable_valid pinv os rs (h, s) H E). Qed.
Lemma chain_valid : valid chain_h chain_s.
Proof.
  assert (E : few (length chain_ops)) by (vm_compute; reflexivity).
  exact (valid_of nopinv _ _ _ _ (chain_run nopinv) E).
Qed.
Lemma chain_linear : linear_sketch chain_h chain_s.
Proof.
  assert (E : forallb (fun k => linear (getK chain_h k)) (s_cons chain_s) = true) by (vm_compute; reflexivity).
  rewrite forallb_forall in E. exact E.
Qed.
Lemma chain_finite : finite_data chain_h chain_s.
Proof. apply (finite_iff _ _ (valid_keys _ _ chain_valid)). vm_compute. reflexivity. Qed.
Lemma chain_sat : at_point chain_h chain_s chain_goal (fst (set_data chain_s chain_goal chain_h)) /\
  get_loss (fst (set_data chain_s chain_goal chain_h)) chain_s = S754_zero false.
Proof.
  split; [|vm_compute; reflexivity].
  assert (E : snd (set_data chain_s chain_goal chain_h) = Val tt) by (vm_compute; reflexivity).
  assert (E' : set_data chain_s chain_goal chain_h = (fst (set_data chain_s chain_goal chain_h), Val tt)) by (rewrite <- E; apply surjective_pairing).
  apply (proj2 (at_frame _ _ _ _ chain_valid)). split; [exact (set_frame _ _ _ _ _ E') | exact (C09_set_get _ _ _ _ chain_valid E')].
Qed.
Lemma chain_gd : snd (gd_run chain_s gd_default chain_h) = Val (SErr (LineSearch SearchFailed)).
Proof. vm_compute. reflexivity. Qed.
Lemma chain_bfgs : snd (bfgs_run chain_s bfgs_default chain_h) = Val (SErr FailedTwice).
Proof. vm_compute. reflexivity. Qed.
Lemma snd_solve_gd (pinv : mat spec_float -> spec_float -> pinv_res (mat spec_float)) P s h e :
  snd (gd_run s P h) = Val (SErr e) -> snd (solve pinv (GradientBased P) s h) = Val (SErr e).
Proof. unfold solve, mbind. destruct (gd_run s P h) as [h' r]. simpl. intros ->. reflexivity. Qed.
Lemma snd_solve_bfgs (pinv : mat spec_float -> spec_float -> pinv_res (mat spec_float)) P s h e :
  snd (bfgs_run s P h) = Val (SErr e) -> snd (solve pinv (BFGS P) s h) = Val (SErr e).
Proof. unfold solve, mbind. destruct (bfgs_run s P h) as [h' r]. simpl. intros ->. reflexivity. Qed.
Lemma C70_witness (pinv : mat spec_float -> spec_float -> pinv_res (mat spec_float)) : exists os rs h s,
  run pinv init os rs (h, s) /\ linear_sketch h s /\ finite_data h s /\
  (exists x hx, at_point h s x hx /\ get_loss hx s = S754_zero false) /\
  snd (solve pinv (GradientBased gd_default) s h) = Val (SErr (LineSearch SearchFailed)) /\
  snd (solve pinv (BFGS bfgs_default) s h) = Val (SErr FailedTwice).
Proof.
  exists chain_ops, chain_rets, chain_h, chain_s. split; [exact (chain_run pinv)|].
  split; [exact chain_linear|]. split; [exact chain_finite|]. split; [exists chain_goal; eexists; exact chain_sat|].
  split; [exact (snd_solve_gd pinv _ _ _ _ chain_gd) | exact (snd_solve_bfgs pinv _ _ _ _ chain_bfgs)].
Qed.
End W.
