(** * Error messages (proofs for C87) *)
From Coq Require Import List NArith Arith Bool Lia Ascii String.
From Verif Require Import Arith Vec Prim Cons Sketch Solve Api Spec BookLemmas SpecLemmas Message MessageSpec.
Import ListNotations.
Local Open Scope string_scope.

Lemma digit_ok n : digit_value (digit n) = Some (n mod 10)%N.
Proof.
  unfold digit. assert (H : (n mod 10 < 10)%N) by (apply N.mod_lt; lia). generalize dependent (n mod 10)%N. intros m H.
  destruct m as [|p]; [reflexivity|]. do 4 (destruct p as [p|p|]; try reflexivity; try lia).
Qed.
Lemma digit_zero n : digit n = "0"%char -> (n mod 10 = 0)%N.
Proof. intros E. pose proof (digit_ok n) as D. rewrite E in D. change (digit_value "0") with (Some 0%N) in D. congruence. Qed.
Lemma dec_read f : forall n acc, (n < 10 ^ N.of_nat (S f))%N -> read_from 0 (dec_loop (S f) n acc) = read_from n acc.
Proof.
  induction f as [|f IH]; intros n acc H.
  - cbn [dec_loop]. assert (Z : (n / 10 = 0)%N) by (apply N.div_small; exact H). rewrite Z. cbn [N.eqb read_from]. rewrite digit_ok. f_equal. rewrite N.mod_small by exact H. lia.
  - set (g := S f) in *. cbn [dec_loop]. destruct (N.eqb_spec (n / 10) 0) as [Z|Z].
    + cbn [read_from]. rewrite digit_ok. f_equal. pose proof (N.div_mod n 10 ltac:(lia)). lia.
    + rewrite IH. * cbn [read_from]. rewrite digit_ok. f_equal. pose proof (N.div_mod n 10 ltac:(lia)). lia.
      * apply N.div_lt_upper_bound; [lia|]. replace (N.of_nat (S g)) with (N.succ (N.of_nat g)) in H by lia. rewrite N.pow_succ_r' in H. exact H.
Qed.
Lemma dec_head f : forall n acc, (n < 10 ^ N.of_nat f)%N -> (0 < n)%N -> exists c r, dec_loop f n acc = String c r /\ c <> "0"%char.
Proof.
  induction f as [|f IH]; intros n acc H P; [cbn in H; lia|]. cbn [dec_loop]. destruct (N.eqb_spec (n / 10) 0) as [Z|Z].
  - exists (digit n), acc. split; auto. intros E. apply digit_zero in E. pose proof (N.div_mod n 10 ltac:(lia)). lia.
  - apply IH; [|now apply N.neq_0_lt_0]. apply N.div_lt_upper_bound; [lia|]. replace (N.of_nat (S f)) with (N.succ (N.of_nat f)) in H by lia. rewrite N.pow_succ_r' in H. exact H.
Qed.
Lemma u64_digits n : u64 n -> (n < 10 ^ N.of_nat 20)%N.
Proof. unfold u64. intros H. eapply N.lt_le_trans; [exact H|]. vm_compute. discriminate. Qed.
Lemma show_decimal n : u64 n -> decimal (show_u64 n) n.
Proof.
  intros H. apply u64_digits in H. split; [exact (dec_read 19 n "" H)|]. destruct (N.eq_dec n 0) as [->|Z].
  - intros _. reflexivity.
  - unfold show_u64. destruct (dec_head 20 n "" H ltac:(lia)) as (c & r & -> & E). intros C. contradiction.
Qed.
Lemma len_app a b : String.length (a ++ b) = String.length a + String.length b.
Proof. induction a as [|c a IH]; simpl; auto. Qed.
Lemma app_cancel a : forall b t, a ++ t = b ++ t -> a = b.
Proof.
  induction a as [|c a IH]; intros [|d b] t E; auto.
  - exfalso. apply (f_equal String.length) in E. cbn [append String.length] in E. rewrite len_app in E. lia.
  - exfalso. apply (f_equal String.length) in E. cbn [append String.length] in E. rewrite len_app in E. lia.
  - cbn [append] in E. injection E as <- E. f_equal. eapply IH; eauto.
Qed.
Lemma app_cancel_l p : forall a b, p ++ a = p ++ b -> a = b.
Proof. induction p as [|c p IH]; intros a b E; auto. cbn [append] in E. injection E as E. auto. Qed.
Lemma message_inj e1 e2 : u64_error e1 -> u64_error e2 -> message e1 = message e2 -> e1 = e2.
Proof.
  intros U1 U2 E. destruct e1, e2; try reflexivity; try discriminate E. cbn [message] in E. apply app_cancel_l in E. apply app_cancel in E. f_equal.
  destruct (show_decimal _ U1) as [R1 _], (show_decimal _ U2) as [R2 _]. rewrite E in R1. congruence.
Qed.

Local Close Scope string_scope.
Notation length := List.length.
Section Calls.
Context {F : Type} {A : Arith F}.
Variable pinv : mat F -> F -> pinv_res (mat F).
Lemma missing s (l : list pcell) : forallb (has_prim s) l = false -> exists r, In r l /\ has_prim s r = false.
Proof. induction l as [|r l IH]; [discriminate|]. cbn [forallb]. destruct (has_prim s r) eqn:E; [intros Q; destruct (IH Q) as (x & X1 & X2); exists x; simpl; auto | intros _; exists r; simpl; auto]. Qed.
Lemma not_reg (h : heap F) s r : valid h s -> has_prim s r = false -> ~ registered s r.
Proof. intros V E R. apply has_prim_nIn in E. apply E. now apply (valid_reg h). Qed.
Lemma fresh_out (h : heap F) s c : valid h s -> ~ cell_ok h c -> has_prim s c = false.
Proof. intros V N. destruct (has_prim s c) eqn:E; auto. exfalso. apply N. apply V. apply (valid_reg h); auto. now apply has_prim_In. Qed.
Lemma fresh_con (h : heap F) s k : valid h s -> (length (h_cons h) <= k)%nat -> has_con s k = false.
Proof. intros V N. destruct (has_con s k) eqn:E; auto. exfalso. apply has_con_In in E. pose proof (v_live_cons _ _ V k E). lia. Qed.
Lemma on_heap_err {T} (m : M F T) (f : T -> ret F) st st' e : (forall x, f x <> RetErr e) -> on_heap m f st <> (st', RetErr e).
Proof. intros N. unfold on_heap. destruct (m (fst st)) as [h' [x|]]; intros E; [injection E as _ E; exact (N x E) | discriminate E]. Qed.
Lemma says_lemma st o st' e : valid (fst st) (snd st) -> step pinv st o = (st', RetErr e) ->
  says st o e \/ e = ConstraintNotFound /\ exists k, o = DeleteConstraint k /\ s_cons (snd st) = [k].
Proof.
  destruct st as [h s]. cbn [fst snd]. intros V E.
  destruct o; try (exfalso; first [discriminate E | revert E; cbn [step]; apply on_heap_err; discriminate]); cbn [step] in E.
  - destruct (con_new_ok c); discriminate E.
  - unfold add_primitive in E. destruct (forallb (has_prim s) (prim_refs h c)) eqn:R; cbn [negb] in E.
    + destruct (has_prim s c) eqn:P; [|discriminate E]. injection E as _ <-. left. exists c. split; auto. apply has_prim_In in P. now apply (valid_reg h).
    + injection E as _ <-. left. destruct (missing s _ R) as (rr & R1 & R2). exists rr. split; auto. now apply (not_reg h).
  - exfalso. unfold add_point2, allocP, add_primitive in E. cbn [prim_refs forallb negb] in E.
    rewrite (fresh_out h s) in E; [discriminate E | auto | cbn; lia].
  - unfold add_line, allocL, add_primitive in E. destruct (forallb (has_prim s) _) eqn:R; cbn [negb] in E.
    + exfalso. rewrite (fresh_out h s) in E; [discriminate E | auto | cbn; lia].
    + injection E as _ <-. left. destruct (missing s _ R) as (rr & R1 & R2). exists rr. split; [|now apply (not_reg h)].
      cbn [prim_refs added_refs] in *. unfold getL in R1. cbn [h_lines] in R1. rewrite app_nth2 in R1 by lia. rewrite Nat.sub_diag in R1. exact R1.
  - unfold add_arc, allocA, add_primitive in E. destruct (forallb (has_prim s) _) eqn:R; cbn [negb] in E.
    + exfalso. rewrite (fresh_out h s) in E; [discriminate E | auto | cbn; lia].
    + injection E as _ <-. left. destruct (missing s _ R) as (rr & R1 & R2). exists rr. split; [|now apply (not_reg h)].
      cbn [prim_refs added_refs] in *. unfold getA in R1. cbn [h_arcs] in R1. rewrite app_nth2 in R1 by lia. rewrite Nat.sub_diag in R1. exact R1.
  - unfold add_constraint in E. destruct (forallb (has_prim s) _) eqn:R; cbn [negb] in E.
    + destruct (has_con s k) eqn:P; [|discriminate E]. injection E as _ <-. left. exists k. split; auto. now apply has_con_In.
    + injection E as _ <-. left. destruct (missing s _ R) as (rr & R1 & R2). exists rr. split; auto. now apply (not_reg h).
  - unfold constrain in E. destruct (con_new_ok c); cbn [negb] in E; [|discriminate E]. unfold allocK, add_constraint in E. destruct (forallb (has_prim s) _) eqn:R; cbn [negb] in E.
    + exfalso. rewrite (fresh_con h s) in E; [discriminate E | auto | lia].
    + injection E as _ <-. left. destruct (missing s _ R) as (rr & R1 & R2). exists rr. split; [|now apply (not_reg h)].
      cbn [added_refs]. unfold getK in R1. cbn [h_cons] in R1. rewrite app_nth2 in R1 by lia. rewrite Nat.sub_diag in R1. exact R1.
  - unfold delete_primitive in E. destruct (bt_get id (s_prims s)) eqn:G; [discriminate E|]. injection E as _ <-. left. split; auto.
  - unfold delete_constraint in E. destruct (Nat.eqb_spec (length (s_cons s)) (length (filter (fun c => Nat.eqb c k) (s_cons s)))) as [Q|Q]; [|discriminate E].
    injection E as _ <-. pose proof (v_cons _ _ V) as ND. revert Q ND. clear V. destruct (s_cons s) as [|a [|b l]] eqn:S; intros Q ND.
    + left. exists k. split; auto. rewrite S. auto.
    + cbn [filter] in Q. destruct (Nat.eqb_spec a k) as [->|N]; [|discriminate Q]. right. split; auto. exists k. auto.
    + exfalso. assert (All : forall x, In x (a :: b :: l) -> x = k).
      { clear - Q. revert Q. generalize (a :: b :: l). intros u. induction u as [|x u IH]; intros Q y Hy; [destruct Hy|]. cbn [filter length] in Q. destruct (Nat.eqb_spec x k) as [->|N].
        - cbn [length] in Q. injection Q as Q. destruct Hy as [<-|Hy]; auto.
        - exfalso. assert (length (filter (fun c => Nat.eqb c k) u) <= length u)%nat by (clear; induction u as [|z u IH]; cbn [filter]; auto; destruct (Nat.eqb z k); cbn [length]; lia). lia. }
      inversion ND as [|? ? N1 _]; subst. apply N1. left. rewrite (All a), (All b); simpl; auto.
  - destruct (same_kind (getK h k) c); discriminate E.
Qed.
End Calls.
