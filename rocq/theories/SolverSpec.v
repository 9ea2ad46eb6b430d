(** * Vocabulary of the solver properties *)
From Coq Require Import List ZArith NArith Arith Bool.
From Verif Require Import Arith Vec Prim Cons Sketch Solve Spec.
Import ListNotations.

Section SolverSpec.
Context {F : Type} {A : Arith F}.

(** [hx] is the sketch [s] of heap [h] with its parameters moved to [x] (cached gradients are
    irrelevant and not compared). *)
Definition at_point (h : heap F) (s : sketch) (x : vec F) (hx : heap F) : Prop :=
  same_structure h hx /\ get_data hx s = x /\
  forall c, ~ registered s c -> prim_data hx c = prim_data h c.

(** The two Wolfe conditions at step length [a] from [h] along [d], where [m] is the slope
    gradient . d at [h]. *)
Definition sufficient_decrease (h : heap F) (s : sketch) (d : vec F) (m a : F) (b : bool) : Prop :=
  exists hx, at_point h s (vadd (get_data h s) (vscale a d)) hx /\
    fle (get_loss hx s) (get_loss h s +f flit 1 4 *f a *f m) = b.
Definition curvature (h : heap F) (s : sketch) (d : vec F) (m a : F) (b : bool) : Prop :=
  exists hx g, at_point h s (vadd (get_data h s) (vscale a d)) hx /\
    snd (get_gradient s hx) = Val g /\ fge (vdot g d) (flit 9 1 *f m) = b.

(** the step lengths tried: 1, then halved after too little decrease, times 1.5 after too
    little curvature *)
Inductive trial (h : heap F) (s : sketch) (d : vec F) (m : F) : nat -> F -> Prop :=
| trial_first : trial h s d m 0 (flit 1 0)
| trial_shrink k a : trial h s d m k a -> sufficient_decrease h s d m a false ->
    trial h s d m (S k) (a *f flit 5 1)
| trial_grow k a : trial h s d m k a -> sufficient_decrease h s d m a true ->
    curvature h s d m a false -> trial h s d m (S k) (a *f flit 15 1).

(** [n] accepted steps of gradient descent from [h0] to [h] *)
Inductive gd_steps (s : sketch) (h0 : heap F) : nat -> heap F -> Prop :=
| gd_start : gd_steps s h0 0 h0
| gd_step n h h1 g alpha h2 h3 : gd_steps s h0 n h ->
    get_gradient s h = (h1, Val g) ->
    line_search_wolfe s (vneg g) g h1 = (h2, Val (LOk alpha)) ->
    set_data s (vaxpy alpha (vneg g) (flit 1 0) (get_data h s)) h2 = (h3, Val tt) ->
    gd_steps s h0 (S n) h3.

(** [n] accepted BFGS steps and [r] failed line searches lead from [h0] to the state
    ([h], [data], [H]) at the head of the main loop; [b]: the last pass was a failed search *)
Inductive bfgs_steps (s : sketch) (h0 : heap F) : nat -> nat -> bool -> heap F -> vec F -> mat F -> Prop :=
| bfgs_start : bfgs_steps s h0 0 0 false h0 (get_data h0 s) (mident (get_n_dofs h0 s))
| bfgs_accept n r b h data H h1 g alpha h2 h3 h4 g' : bfgs_steps s h0 n r b h data H ->
    get_gradient s h = (h1, Val g) ->
    line_search_wolfe s (mvec (mneg H) g) g h1 = (h2, Val (LOk alpha)) ->
    set_data s (vadd data (vscale alpha (mvec (mneg H) g))) h2 = (h3, Val tt) ->
    get_gradient s h3 = (h4, Val g') ->
    bfgs_steps s h0 (S n) r false h4 (vadd data (vscale alpha (mvec (mneg H) g)))
      (bfgs_update H (vscale alpha (mvec (mneg H) g)) (vsub g' g)
        (bfgs_sdoty (vscale alpha (mvec (mneg H) g)) (vsub g' g)))
| bfgs_reset n r h data H h1 g h2 : bfgs_steps s h0 n r false h data H ->
    get_gradient s h = (h1, Val g) ->
    line_search_wolfe s (mvec (mneg H) g) g h1 = (h2, Val (LErr SearchFailed)) ->
    bfgs_steps s h0 n (S r) true h2 data (mident (length data)).

(** [n] iterations of Gauss-Newton / Levenberg-Marquardt; [l] is the loss before the last one *)
Inductive nls_steps (pinv : mat F -> F -> pinv_res (mat F)) (s : sketch)
  (normal : nat -> mat F -> mat F) (eps step : F) (h0 : heap F) : nat -> F -> heap F -> Prop :=
| nls_start : nls_steps pinv s normal eps step h0 0 finf h0
| nls_iter n l h h1 J x h2 : nls_steps pinv s normal eps step h0 n l h ->
    get_jacobian s h = (h1, Val J) ->
    nls_step pinv (get_data h s) (get_loss_per_constraint h s) J (normal (get_n_dofs h s) J) eps step = PInv x ->
    set_data s x h1 = (h2, Val tt) ->
    nls_steps pinv s normal eps step h0 (S n) (vsum (get_loss_per_constraint h s)) h2.

End SolverSpec.
