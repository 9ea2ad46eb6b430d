(** * What a constructor leaves behind: proofs (for C91) *)
From Coq Require Import List Arith Lia.
From Verif Require Import Arith Vec Prim Cons Sketch Solve Api CreateSpec.
Import ListNotations.

Lemma C91_created_lemma {F} {A : Arith F} pinv (st st' : state F) o l : creates o -> step pinv st o = (st', RetLoc l) ->
  as_asked (fst st') o l /\ was_free (fst st) o l.
Proof.
  destruct st as [h s]. intros C E. destruct o; try contradiction; cbn [step] in E; unfold add_point2, add_line, add_arc, constrain in E;
    cbn [allocP allocL allocA allocC allocK] in E; repeat (destruct (con_new_ok _) in E; cbn [negb] in E);
    repeat match type of E with context [add_primitive ?a ?b ?c] => destruct (add_primitive a b c) as [? [?|?]] | context [add_constraint ?a ?b ?c] => destruct (add_constraint a b c) as [? [?|?]] end; cbn [of_res] in E; try discriminate;
    injection E as <- <-; cbn; (split; [|lia]); unfold getP, getL, getA, getC, getK; cbn;
    rewrite app_nth2, Nat.sub_diag by lia; reflexivity.
Qed.
Lemma C91_kept_lemma {F} {A : Arith F} pinv (st st' : state F) o r : creates o -> step pinv st o = (st', r) -> kept_all (fst st) (fst st').
Proof.
  destruct st as [h s]. intros C E.
  assert (K : kept_all h h) by (repeat split; reflexivity).
  destruct o; try contradiction; cbn [step] in E; unfold add_point2, add_line, add_arc, constrain in E;
    cbn [allocP allocL allocA allocC allocK] in E; repeat (destruct (con_new_ok _) in E; cbn [negb] in E);
    repeat match type of E with context [add_primitive ?a ?b ?c] => destruct (add_primitive a b c) as [? [?|?]] | context [add_constraint ?a ?b ?c] => destruct (add_constraint a b c) as [? [?|?]] end; cbn [of_res] in E; try discriminate;
    injection E as <- <-; cbn [fst]; try exact K; repeat split; intros i Hi; unfold getP, getL, getA, getC, getK; cbn; rewrite ?app_nth1 by exact Hi; reflexivity.
Qed.
