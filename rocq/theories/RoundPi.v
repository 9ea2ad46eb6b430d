(** * Bounds on pi (proofs for C68) *)
From Coq Require Import ZArith Reals Lra Lia QArith Qreals Machin Rtrigo_alt AltSeries SeqProp Ratan.
Local Open Scope R_scope.

Definition qpow (q : Q) (n : nat) : Q := Nat.iter n (fun x => Qred (x * q)) 1%Q.
Definition qterm (n : nat) : Q :=
  let k := (2 * n + 1)%nat in
  Qred ((2 * qpow (1 # 3) k / inject_Z (Z.of_nat k) + qpow (1 # 7) k / inject_Z (Z.of_nat k)) * (if Nat.even n then 1 else -1))%Q.
Fixpoint qs (n : nat) : Q := match n with O => qterm 0 | S m => Qred (qs m + qterm (S m)) end.
Lemma Q2R_red q : Q2R (Qred q) = Q2R q. Proof. apply Qeq_eqR, Qred_correct. Qed.
Lemma qpow_R q n : Q2R (qpow q n) = Q2R q ^ n.
Proof.
  induction n as [|n IH]; [unfold qpow, Q2R; simpl; lra|]. change (qpow q (S n)) with (Qred (qpow q n * q)).
  rewrite Q2R_red, Q2R_mult, IH. simpl. ring.
Qed.
Lemma qz_R z : Q2R (inject_Z z) = IZR z. Proof. unfold Q2R, inject_Z. simpl. field. Qed.
Lemma qterm_R n : Q2R (qterm n) = tg_alt PI_2_3_7_tg n.
Proof.
  unfold qterm, tg_alt, PI_2_3_7_tg, Ratan_seq. rewrite Q2R_red, Q2R_mult, Q2R_plus, !Q2R_div, Q2R_mult, !qpow_R, !qz_R.
  - rewrite <- INR_IZR_INZ. replace (Q2R (1 # 3)) with (/ 3) by (unfold Q2R; simpl; lra). replace (Q2R (1 # 7)) with (/ 7) by (unfold Q2R; simpl; lra).
    replace (Q2R 2) with 2 by (unfold Q2R; simpl; lra).
    assert (E : Q2R (if Nat.even n then 1 else -1) = (-1) ^ n).
    { induction n as [|n IH]; [unfold Q2R; simpl; lra|]. rewrite Nat.even_succ, <- Nat.negb_even. simpl pow. rewrite <- IH.
      destruct (Nat.even n); unfold Q2R; simpl; lra. }
    rewrite E. unfold Rdiv. ring.
  - intros H. apply (Qeq_eqR) in H. rewrite qz_R in H. unfold Q2R in H; simpl in H. rewrite Rmult_0_l in H; apply eq_IZR in H; lia.
  - intros H. apply (Qeq_eqR) in H. rewrite qz_R in H. unfold Q2R in H; simpl in H. rewrite Rmult_0_l in H; apply eq_IZR in H; lia.
Qed.
Lemma qs_R n : Q2R (qs n) = sum_f_R0 (tg_alt PI_2_3_7_tg) n.
Proof. induction n as [|n IH]; [apply qterm_R|]. change (qs (S n)) with (Qred (qs n + qterm (S n))). rewrite Q2R_red, Q2R_plus, IH, qterm_R. reflexivity. Qed.
(** pi64 = 7074237752028440 * 2^-51 *)
Lemma pi_close : 0 < PI - 7074237752028440 / 2251799813685248 < / 4503599627370496.
Proof.
  pose proof (PI_2_3_7_ineq 9) as [B1 B2]. change (S (2 * 9)) with 19%nat in B1. change (2 * 9)%nat with 18%nat in B2. rewrite <- qs_R in B1, B2.
  assert (L : Q2R (7074237752028440 # 9007199254740992) < Q2R (qs 19)) by (apply Qlt_Rlt; vm_compute; reflexivity).
  assert (U : Q2R (qs 18) < Q2R (14148475504056881 # 18014398509481984)) by (apply Qlt_Rlt; vm_compute; reflexivity).
  revert L U B1 B2. generalize (Q2R (qs 19)), (Q2R (qs 18)). intros a b. unfold Q2R. cbn [Qnum Qden]. lra.
Qed.
