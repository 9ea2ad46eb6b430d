(** * Interrupting and resuming a solver *)
From Coq Require Import List NArith.
From Verif Require Import Arith Vec Prim Cons Sketch Solve Spec.

(** the outcome of a run that follows one of [i] iterations *)
Definition after (i : nat) (r : out (sres nat)) : out (sres nat) :=
  match r with Val (SOk j) => Val (SOk (i + j)) | r => r end.
(** the same solver with another iteration budget *)
Definition gd_budget {F} (n : N) (P : gd_params F) : gd_params F := mkGD n (gd_min_loss P) (gd_min_grad P).
Definition bfgs_budget {F} (n : N) (P : bfgs_params F) : bfgs_params F := mkBFGS n (bf_min_loss P) (bf_grad P).
Definition gn_budget {F} (n : N) (P : gn_params F) : gn_params F := mkGN n (gn_min_loss P) (gn_step P) (gn_eps P).
Definition lm_budget {F} (n : N) (P : lm_params F) : lm_params F := mkLM n (lm_min_loss P) (lm_step P) (lm_eps P) (lm_beta P).
(** equal but for cached gradients *)
Definition same_state {F} {A : Arith F} (h h' : heap F) : Prop := same_structure h h' /\ forall c, prim_data h' c = prim_data h c.
