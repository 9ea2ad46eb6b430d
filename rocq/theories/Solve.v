(** * Solvers  (src/solvers/*.rs) *)
From Coq Require Import List ZArith NArith Arith Bool.
From Verif Require Import Arith Vec Prim Cons Sketch.
Import ListNotations.

(** line_search.rs:6-11 *)
Inductive ls_err := NotDescentDirection | SearchFailed.
Inductive ls_res (T : Type) := LOk (x : T) | LErr (e : ls_err).
Arguments LOk {T} _.  Arguments LErr {T} _.

(** The errors a solver can return ([Box<dyn Error>]): bfgs_solver.rs:58, 67, 78, 84;
    gradient_based_solver.rs:55; the [?] on pseudo_inverse in gauss_newton_solver.rs:53 and
    levenberg_marquardt.rs:64.  [OutOfFuel] is not an error of the code: it marks exhaustion
    of the model's recursion fuel for the BFGS loop and is excluded by theorem (C21). *)
Inductive serr :=
| NonFiniteGradient | NonFiniteDirection | FailedTwice | LineSearch (e : ls_err)
| PseudoInverse | OutOfFuel.
Inductive sres (T : Type) := SOk (x : T) | SErr (e : serr).
Arguments SOk {T} _.  Arguments SErr {T} _.

(** What nalgebra's [pseudo_inverse] may do: return a matrix, an Err, or panic (it panics
    on an empty matrix).  The function itself is an oracle. *)
Inductive pinv_res (T : Type) := PInv (x : T) | PErr | PPanic.
Arguments PInv {T} _.  Arguments PErr {T}.  Arguments PPanic {T}.

Section Solve.
Context {F : Type} {A : Arith F}.

(** ** Line search (line_search.rs) *)
Definition wolfe_c1 : F := flit 1 4.                              (* 13: 1e-4 *)
Definition wolfe_c2 : F := flit 9 1.                              (* 14: 0.9 *)
Definition ls_max_iter : nat := 15.                               (* 15 *)

(** 30-46 *)
Fixpoint ls_loop (s : sketch) (x0 dir : vec F) (loss m curv : F) (n : nat) (alpha : F)
  : M F (ls_res F) :=
  match n with
  | O => mret (LErr SearchFailed)
  | S n' =>
      mbind (set_data s (vadd x0 (vscale alpha dir))) (fun _ h =>
        let new_loss := get_loss h s in
        if fle new_loss (loss +f wolfe_c1 *f alpha *f m) then
          mbind (get_gradient s) (fun ng =>
            if fge (vdot ng dir) curv then mret (LOk alpha)
            else ls_loop s x0 dir loss m curv n' (alpha *f flit 15 1)) h
        else ls_loop s x0 dir loss m curv n' (alpha *f fhalf) h)
  end.

(** 17-48 *)
Definition line_search_wolfe (s : sketch) (dir gradient : vec F) : M F (ls_res F) := fun h =>
  let m := vdot gradient dir in
  if fge m f0 then (h, Val (LErr NotDescentDirection))
  else ls_loop s (get_data h s) dir (get_loss h s) m (wolfe_c2 *f m) ls_max_iter f1 h.

(** ** Gradient descent (gradient_based_solver.rs) *)
Record gd_params := mkGD { gd_max : N; gd_min_loss : F; gd_min_grad : F }.     (* 8-12 *)
Definition gd_default : gd_params := mkGD 10000 (flit 1 14) (flit 1 10).       (* 21-27 *)

(** 45-66; returns the value of [iterations] *)
Fixpoint gd_loop (s : sketch) (P : gd_params) (n : nat) (iterations : nat)
         (gradient : vec F) (grad_norm loss : F) : M F (sres nat) :=
  match n with
  | O => mret (SOk iterations)
  | S n' =>
      if flt grad_norm (gd_min_grad P) then mret (SOk iterations)
      else if flt loss (gd_min_loss P) then mret (SOk iterations)
      else fun h =>
        let data := get_data h s in
        let direction := vneg gradient in
        mbind (line_search_wolfe s direction gradient) (fun r =>
          match r with
          | LErr e => mret (SErr (LineSearch e))
          | LOk alpha =>
              mbind (set_data s (vaxpy alpha direction f1 data)) (fun _ h =>
                let loss' := get_loss h s in
                mbind (get_gradient s) (fun g' =>
                  gd_loop s P n' (S iterations) g' (vnorm g') loss') h)
          end) h
  end.
(** 39-69 *)
Definition gd_run (s : sketch) (P : gd_params) : M F (sres nat) :=
  mbind (get_gradient s) (fun g h =>
    gd_loop s P (N.to_nat (gd_max P)) 0 g (vnorm g) (get_loss h s) h).

(** ** BFGS (bfgs_solver.rs) *)
Record bfgs_params := mkBFGS { bf_max : N; bf_min_loss : F; bf_grad : F }.     (* 10-14 *)
Definition bfgs_default : bfgs_params := mkBFGS 1000 (flit 1 16) (flit 1 8).   (* 23-29 *)

(** 104-113: the update of the inverse Hessian from s, y and s_dot_y *)
Definition bfgs_update (hm : mat F) (s y : vec F) (s_dot_y : F) : mat F :=
  let hy := mvec hm y in
  let factor := (s_dot_y +f vdot y hy) /f (s_dot_y *f s_dot_y) in
  let h1 := mger factor s s f1 hm in
  let hys_factor := fneg f1 /f s_dot_y in
  let h2 := mger hys_factor hy s f1 h1 in
  mger hys_factor s hy f1 h2.

(** 98-102 *)
Definition bfgs_sdoty (s y : vec F) : F :=
  let sy := vdot s y in
  if flt (fabs sy) (flit 1 16) then sy +f flit 1 6 else sy.

(** 50-116; [fuel] bounds the number of passes; returns [iterations] *)
Fixpoint bfgs_loop (s : sketch) (P : bfgs_params) (fuel : nat) (iterations : N)
         (data : vec F) (hm : mat F) (recently_reset : bool) : M F (sres N) :=
  match fuel with
  | O => mret (SErr OutOfFuel)
  | S fuel' =>
      if negb (iterations <? bf_max P)%N then mret (SOk iterations)
      else fun h =>
        if flt (get_loss h s) (bf_min_loss P) then (h, Val (SOk iterations))
        else
          mbind (get_gradient s) (fun gradient =>
            if negb (all_finite gradient) then mret (SErr NonFiniteGradient)
            else if flt (vnorm_inf gradient) (bf_grad P) then mret (SOk iterations)
            else
              let p := mvec (mneg hm) gradient in
              if negb (all_finite p) then mret (SErr NonFiniteDirection)
              else
                mbind (line_search_wolfe s p gradient) (fun r =>
                  match r with
                  | LErr SearchFailed =>
                      if recently_reset then mret (SErr FailedTwice)
                      else bfgs_loop s P fuel' iterations data (mident (length data)) true
                  | LErr e => mret (SErr (LineSearch e))
                  | LOk alpha =>
                      let sv := vscale alpha p in
                      let new_data := vadd data sv in
                      mbind (set_data s new_data) (fun _ =>
                        mbind (get_gradient s) (fun new_gradient =>
                          let y := vsub new_gradient gradient in
                          bfgs_loop s P fuel' (iterations + 1)%N new_data
                            (bfgs_update hm sv y (bfgs_sdoty sv y)) false))
                  end)) h
  end.
(** 41-119 *)
Definition bfgs_run (s : sketch) (P : bfgs_params) : M F (sres N) := fun h =>
  let data := get_data h s in
  bfgs_loop s P (2 * N.to_nat (bf_max P) + 2) 0 data (mident (length data)) false h.

(** ** Gauss-Newton (gauss_newton_solver.rs) and Levenberg-Marquardt (levenberg_marquardt.rs) *)
Record gn_params := mkGN { gn_max : N; gn_min_loss : F; gn_step : F; gn_eps : F }.  (* 7-12 *)
Definition gn_default : gn_params := mkGN 10000 (flit 1 6) (flit 1 3) (flit 1 6).   (* 21-28 *)
Definition gn_with_params (max : N) (min_loss step : F) : gn_params :=              (* 30-37 *)
  mkGN max min_loss step (flit 1 6).
Record lm_params :=
  mkLM { lm_max : N; lm_min_loss : F; lm_step : F; lm_eps : F; lm_beta : F }.       (* 9-15 *)
Definition lm_default : lm_params :=                                                (* 24-32 *)
  mkLM 1000 (flit 1 10) (flit 1 1) (flit 1 6) (flit 1 5).
Definition lm_with_params (max : N) (min_loss step beta : F) : lm_params :=         (* 34-47 *)
  mkLM max min_loss step (flit 1 6) beta.

Definition vmuls (v : vec F) (a : F) : vec F := map (fun x => x *f a) v.            (* v * a *)

Section Pinv.
Variable pinv : mat F -> F -> pinv_res (mat F).

(** One update of the parameter vector:
    data -= normal.pseudo_inverse(eps)? * J^T * losses * step *)
Definition nls_step (data losses : vec F) (jac : mat F) (normal : mat F) (eps step : F)
  : pinv_res (vec F) :=
  let n := length data in
  match pinv normal eps with
  | PInv q => PInv (vsub data (vmuls (mvec (mmul (length losses) q (mtrans n jac)) losses) step))
  | PErr => PErr
  | PPanic => PPanic
  end.

(** the common loop: gauss_newton_solver.rs:45-61, levenberg_marquardt.rs:55-72;
    [normal n J] is the matrix whose pseudo-inverse is taken *)
Fixpoint nls_loop (s : sketch) (normal : nat -> mat F -> mat F) (min_loss eps step : F)
         (n : nat) (iterations : nat) (loss_sum : F) : M F (sres nat) :=
  match n with
  | O => mret (SOk iterations)
  | S n' =>
      if negb (fgt loss_sum min_loss) then mret (SOk iterations)
      else fun h =>
        let data := get_data h s in
        let losses := get_loss_per_constraint h s in
        mbind (get_jacobian s) (fun jac =>
          match nls_step data losses jac (normal (length data) jac) eps step with
          | PPanic => mpanic
          | PErr => mret (SErr PseudoInverse)
          | PInv data' =>
              mbind (set_data s data') (fun _ =>
                nls_loop s normal min_loss eps step n' (S iterations) (vsum losses))
          end) h
  end.

(** gauss_newton_solver.rs:51 : J^T J *)
Definition gn_normal (n : nat) (jac : mat F) : mat F := mmul n (mtrans n jac) jac.
(** levenberg_marquardt.rs:61-62 : J^T J + beta I *)
Definition lm_normal (beta : F) (n : nat) (jac : mat F) : mat F :=
  madd (mmul n (mtrans n jac) jac) (mscale beta (mident n)).

Definition gn_run (s : sketch) (P : gn_params) : M F (sres nat) :=                  (* 41-63 *)
  nls_loop s gn_normal (gn_min_loss P) (gn_eps P) (gn_step P) (N.to_nat (gn_max P)) 0 finf.
Definition lm_run (s : sketch) (P : lm_params) : M F (sres nat) :=                  (* 51-74 *)
  nls_loop s (lm_normal (lm_beta P)) (lm_min_loss P) (lm_eps P) (lm_step P)
           (N.to_nat (lm_max P)) 0 finf.

(** The four implementations of [Solver::solve] (solvers/mod.rs:12-14).  [Ok(())] carries no
    iteration count; the runs above return it so that theorems can mention it. *)
Inductive solver :=
| GradientBased (P : gd_params) | BFGS (P : bfgs_params)
| GaussNewton (P : gn_params) | LevenbergMarquardt (P : lm_params).

Definition sforget {T} (r : sres T) : sres unit :=
  match r with SOk _ => SOk tt | SErr e => SErr e end.
Definition solve (sol : solver) (s : sketch) : M F (sres unit) :=
  match sol with
  | GradientBased P => mbind (gd_run s P) (fun r => mret (sforget r))
  | BFGS P => mbind (bfgs_run s P) (fun r => mret (sforget r))
  | GaussNewton P => mbind (gn_run s P) (fun r => mret (sforget r))
  | LevenbergMarquardt P => mbind (lm_run s P) (fun r => mret (sforget r))
  end.
End Pinv.
End Solve.
Arguments gd_params : clear implicits.
Arguments bfgs_params : clear implicits.
Arguments gn_params : clear implicits.
Arguments lm_params : clear implicits.
Arguments solver : clear implicits.
