(** * Vectors and matrices (the part of nalgebra the code uses)

    A dynamic vector is a list, a matrix is the list of its rows.  nalgebra is an
    external crate (not in /repo): dot products follow its summation in eight lanes
    (base/blas.rs, [dotx]), a matrix times a vector its [gemv]; other sums are left to right.
    The blocked order of a product of two matrices with more than five rows and columns each
    is not modelled. *)
From Coq Require Import List ZArith Arith.
From Verif Require Import Arith.
Import ListNotations.

(** Pointwise combination; the lengths agree wherever the code uses it
    (nalgebra panics otherwise; every use below has equal lengths by construction). *)
Fixpoint map2 {A B C} (f : A -> B -> C) (l : list A) (m : list B) : list C :=
  match l, m with
  | a :: l', b :: m' => f a b :: map2 f l' m'
  | _, _ => []
  end.

Section Vec.
Context {F : Type} {A : Arith F}.

Definition vec := list F.
Definition mat := list (list F).                        (* rows *)

Definition vadd (u v : vec) : vec := map2 fadd u v.     (* &u + &v *)
Definition vsub (u v : vec) : vec := map2 fsub u v.     (* &u - &v *)
Definition vneg (u : vec) : vec := map fneg u.          (* -&u *)
Definition vscale (a : F) (u : vec) : vec := map (fmul a) u.   (* a * &u *)
Definition vdivs (u : vec) (a : F) : vec := map (fun x => x /f a) u. (* u / a *)

(** [Matrix::dot] on dynamic vectors (nalgebra's [dotx]): as long as eight entries are left, the k-th of them is added to
    the accumulator acc_k; then res = 0; res += acc0 + acc4; res += acc1 + acc5; res += acc2 + acc6; res += acc3 + acc7;
    and the remaining entries are added one by one. *)
Fixpoint sum_lanes (a0 a1 a2 a3 a4 a5 a6 a7 : F) (p : vec) : F :=
  match p with
  | p0 :: p1 :: p2 :: p3 :: p4 :: p5 :: p6 :: p7 :: p' =>
      sum_lanes (a0 +f p0) (a1 +f p1) (a2 +f p2) (a3 +f p3) (a4 +f p4) (a5 +f p5) (a6 +f p6) (a7 +f p7) p'
  | _ => fold_left fadd p (f0 +f (a0 +f a4) +f (a1 +f a5) +f (a2 +f a6) +f (a3 +f a7))
  end.
Definition vdot (u v : vec) : F := sum_lanes f0 f0 f0 f0 f0 f0 f0 f0 (map2 fmul u v).
(** [Matrix::sum]: fold from zero. *)
Definition vsum (u : vec) : F := fold_left fadd u f0.
(** [Matrix::norm] on dynamic vectors. *)
Definition vnorm (u : vec) : F := fsqrt (vdot u u).
(** [apply_norm(&UniformNorm)]: fold (max (modulus x)) from zero. *)
Definition vnorm_inf (u : vec) : F := fold_left (fun acc x => fmax acc (fabs x)) u f0.
(** [y.axpy(a, x, b)]: y = a*x + b*y. *)
Definition vaxpy (a : F) (x : vec) (b : F) (y : vec) : vec :=
  map2 (fun xi yi => a *f xi +f b *f yi) x y.

(** Sum of a non-empty list starting with its first element (nalgebra gemv/gemm with
    beta = 0); zero for the empty list. *)
Definition sum1 (l : vec) : F :=
  match l with [] => f0 | x :: l' => fold_left fadd l' x end.
Definition dot1 (u v : vec) : F := sum1 (map2 fmul u v).

(** [DMatrix::identity(n, n)]. *)
Definition mident (n : nat) : mat :=
  map (fun i => map (fun j => if Nat.eqb i j then f1 else f0) (seq 0 n)) (seq 0 n).
Definition mneg (m : mat) : mat := map vneg m.
Definition madd (m n : mat) : mat := map2 vadd m n.
Definition mscale (a : F) (m : mat) : mat := map (vscale a) m.
(** matrix * column vector *)
Definition mvec (m : mat) (v : vec) : vec := map (fun r => dot1 r v) m.
(** transpose of a matrix with [n] columns *)
Definition mcol (j : nat) (m : mat) : vec := map (fun r => nth j r f0) m.
Definition mtrans (n : nat) (m : mat) : mat := map (fun j => mcol j m) (seq 0 n).
(** product; [n] is the number of columns of the second factor *)
Definition mmul (n : nat) (a b : mat) : mat :=
  map (fun r => map (fun c => dot1 r c) (mtrans n b)) a.
(** row vector * matrix with [n] columns *)
Definition rowmul (n : nat) (r : vec) (m : mat) : vec := map (fun c => dot1 r c) (mtrans n m).
(** [h.ger(alpha, x, y, beta)]: h[i][j] = (alpha*y[j])*x[i] + beta*h[i][j]. *)
Definition mger (alpha : F) (x y : vec) (beta : F) (h : mat) : mat :=
  map2 (fun xi r => map2 (fun yj hij => (alpha *f yj) *f xi +f beta *f hij) y r) x h.

Definition all_finite (v : vec) : bool := forallb ffin v.

End Vec.
Arguments vec : clear implicits.
Arguments mat : clear implicits.
