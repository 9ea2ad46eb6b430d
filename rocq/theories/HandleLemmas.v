(** * Proofs for C91 *)
From Coq Require Import List ZArith NArith Arith Bool Lia.
From Verif Require Import Arith Vec Prim Cons Sketch Solve Api Spec ValueSpec HandleSpec HeapLemmas BookLemmas WfLemmas ValueForms.
Import ListNotations.

Section H.
Context {F : Type} {A : Arith F}.
Variable pinv : mat F -> F -> pinv_res (mat F).
Notation step := (step pinv).
Notation run := (run pinv).

Lemma run_live st os rs st' : run st os rs st' ->
  (forall c, cell_ok (fst st) c -> cell_ok (fst st') c) /\ (length (h_cons (fst st)) <= length (h_cons (fst st'))).
Proof.
  induction 1 as [st|st o st1 r os rs st' Ho Hs Hr [IH1 IH2]]; [auto|].
  apply step_grows in Hs as [G _]. split; [intros c Hc; apply IH1; now apply (grows_cell (fst st))|]. unfold grows in G. lia.
Qed.
Lemma step_con st o st' r k : step st o = (st', r) -> k < length (h_cons (fst st)) ->
  con_kind (getK (fst st') k) = con_kind (getK (fst st) k) /\ (puts_con k o = false -> con_refs (getK (fst st') k) = con_refs (getK (fst st) k)).
Proof.
  intros H Hk. destruct (step_kept pinv st o st' r H) as [K _]. specialize (K k Hk). destruct st as [h s]. cbn [fst] in *.
  destruct o; try (rewrite K by reflexivity; auto; fail); cbn [Api.step] in H; cbn [writes_con puts_con] in *.
  - injection H as <- <-. cbn [fst]. rewrite getK_setK. destruct (Nat.eqb_spec k0 k) as [->|]; [|auto]. cbn [andb].
    destruct (Nat.ltb _ _); [|auto]. split; intros; destruct (getK h k); reflexivity.
  - destruct (same_kind _ _) eqn:Ek; injection H as <- <-; cbn [fst]; [|auto]. rewrite getK_setK.
    destruct (Nat.eqb_spec k0 k) as [->|]; [|auto]. cbn [andb]. destruct (Nat.ltb _ _); [|auto].
    split; [|discriminate]. destruct (getK h k), c; try discriminate Ek; reflexivity.
Qed.
Lemma run_kind st os rs st' k : run st os rs st' -> k < length (h_cons (fst st)) -> con_kind (getK (fst st') k) = con_kind (getK (fst st) k).
Proof.
  induction 1 as [st|st o st1 r os rs st' Ho Hs Hr IH]; intros Hk; [reflexivity|].
  destruct (step_con _ _ _ _ k Hs Hk) as [<- _]. apply IH. apply step_grows in Hs as [G _]. unfold grows in G. lia.
Qed.
Lemma run_crefs st os rs st' k : run st os rs st' -> k < length (h_cons (fst st)) -> Forall (fun o => puts_con k o = false) os ->
  con_refs (getK (fst st') k) = con_refs (getK (fst st) k).
Proof.
  induction 1 as [st|st o st1 r os rs st' Ho Hs Hr IH]; intros Hk Hos; [reflexivity|]. inversion_clear Hos as [|? ? N1 N2].
  destruct (step_con _ _ _ _ k Hs Hk) as [_ E]. rewrite <- (E N1). apply IH; auto. apply step_grows in Hs as [G _]. unfold grows in G. lia.
Qed.
End H.
