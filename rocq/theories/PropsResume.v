(** * C94: which solvers can be interrupted and resumed *)
From Coq Require Import List ZArith NArith Bool Floats.SpecFloat.
From Verif Require Import Arith Vec Prim Cons Sketch Solve Spec ArithF MirrorExamples ScaleExamples ResumeSpec ResumeLemmas ResumeExamples.
Import ListNotations.

(** Gradient descent, in any arithmetic: a run with a budget of a + b iterations is a run with a budget of a followed by one
    with a budget of b - the same iterations in total, the same error or panic, the same data in every primitive, bit for bit. *)
Theorem C94_gradient_descent {F} {A : Arith F} s P a b (h : heap F) : valid h s -> gd_max P = (a + b)%N ->
  match gd_run s (gd_budget a P) h with
  | (h1, Val (SOk i)) => snd (gd_run s P h) = after i (snd (gd_run s (gd_budget b P) h1)) /\
                         same_state (fst (gd_run s P h)) (fst (gd_run s (gd_budget b P) h1))
  | r => gd_run s P h = r
  end.
Proof. exact (C94_gd_lemma s P a b h). Qed.
Print Assumptions C94_gradient_descent.

(** Gauss-Newton and Levenberg-Marquardt, with any pseudo-inverse: the longer budget changes nothing, or the first a
    iterations were used up and the run is continued exactly by the second one. *)
Theorem C94_gauss_newton {F} {A : Arith F} pinv s P a b (h : heap F) : gn_max P = (a + b)%N ->
  gn_run pinv s P h = gn_run pinv s (gn_budget a P) h \/
  exists h1, gn_run pinv s (gn_budget a P) h = (h1, Val (SOk (N.to_nat a))) /\
    gn_run pinv s P h = (fst (gn_run pinv s (gn_budget b P) h1), after (N.to_nat a) (snd (gn_run pinv s (gn_budget b P) h1))).
Proof. exact (C94_gn_lemma s pinv P a b h). Qed.
Print Assumptions C94_gauss_newton.
Theorem C94_levenberg_marquardt {F} {A : Arith F} pinv s P a b (h : heap F) : lm_max P = (a + b)%N ->
  lm_run pinv s P h = lm_run pinv s (lm_budget a P) h \/
  exists h1, lm_run pinv s (lm_budget a P) h = (h1, Val (SOk (N.to_nat a))) /\
    lm_run pinv s P h = (fst (lm_run pinv s (lm_budget b P) h1), after (N.to_nat a) (snd (lm_run pinv s (lm_budget b P) h1))).
Proof. exact (C94_lm_lemma s pinv P a b h). Qed.
Print Assumptions C94_levenberg_marquardt.

(** The first case is real: they start by assuming an infinite loss, so calling them again on a sketch with which they
    were content moves it. *)
Theorem C94_content_refuted L : let A := ArithF L in exists pinv s P h,
  gn_run pinv s P h = gn_run pinv s (gn_budget 1 P) h /\ gn_max P = 2%N /\
  get_data (fst (gn_run pinv s (gn_budget 1 P) (fst (gn_run pinv s (gn_budget 1 P) h)))) s <> get_data (fst (gn_run pinv s (gn_budget 1 P) h)) s.
Proof. exists unit_pinv, chain_sketch, one_gn, chain_heap. exact (chain_gn_resumed L). Qed.
Print Assumptions C94_content_refuted.

(** BFGS forgets its inverse Hessian: interrupted, it takes other steps and can need more of them. *)
Theorem C94_bfgs_refuted L : let A := ArithF L in exists s P h, valid h s /\ bf_max P = (3 + 47)%N /\
  snd (bfgs_run s P h) = Val (SOk 6%N) /\ snd (bfgs_run s (bfgs_budget 3 P) h) = Val (SOk 3%N) /\
  snd (bfgs_run s (bfgs_budget 47 P) (fst (bfgs_run s (bfgs_budget 3 P) h))) = Val (SOk 4%N).
Proof.
  exists chain_sketch, chain_bfgs, chain_heap. exact (conj (chain_valid L) (conj eq_refl (chain_bfgs_resumed L))).
Qed.
Print Assumptions C94_bfgs_refuted.

Example C94_ex L : let A := ArithF L in valid chain_heap chain_sketch /\ gd_max chain_gd = (20 + 30)%N /\
  snd (gd_run chain_sketch chain_gd chain_heap) = Val (SOk 25) /\
  snd (gd_run chain_sketch (gd_budget 20 chain_gd) chain_heap) = Val (SOk 20) /\
  snd (gd_run chain_sketch (gd_budget 30 chain_gd) (fst (gd_run chain_sketch (gd_budget 20 chain_gd) chain_heap))) = Val (SOk 5).
Proof. exact (conj (chain_valid L) (conj eq_refl (chain_resumed L))). Qed.
