(** * Exact arithmetic: reals extended by +inf, -inf and NaN

    The IEEE-754 rules for special values without rounding, overflow, underflow or signed
    zeros: x/0 is an infinity with the sign of x (zero counts as +0), 0/0, inf-inf, 0*inf, the
    root of a negative number, acos outside [-1,1] and trigonometric functions of infinities
    are NaN; atan2 of an infinity is NaN here (IEEE gives a multiple of pi/4). *)
From Coq Require Import Reals ZArith Bool.
From Verif Require Import Arith.
Local Open Scope R_scope.

Inductive xR := Fin (r : R) | PInf | NInf | NaN.

Definition Rltb (a b : R) : bool := if Rlt_dec a b then true else false.
Definition Rleb (a b : R) : bool := if Rle_dec a b then true else false.
Definition Reqb (a b : R) : bool := if Req_EM_T a b then true else false.

Definition xneg (a : xR) : xR :=
  match a with Fin x => Fin (- x) | PInf => NInf | NInf => PInf | NaN => NaN end.
Definition xadd (a b : xR) : xR :=
  match a, b with
  | Fin x, Fin y => Fin (x + y)
  | NaN, _ | _, NaN => NaN
  | PInf, NInf | NInf, PInf => NaN
  | PInf, _ | _, PInf => PInf
  | NInf, _ | _, NInf => NInf
  end.
Definition xsub (a b : xR) : xR :=
  match a, b with Fin x, Fin y => Fin (x - y) | _, _ => xadd a (xneg b) end.
(** sign of a real: infinity of that sign, NaN for zero *)
Definition sgn_inf (x : R) : xR := if Rlt_dec 0 x then PInf else if Rlt_dec x 0 then NInf else NaN.
Definition xmul (a b : xR) : xR :=
  match a, b with
  | Fin x, Fin y => Fin (x * y)
  | NaN, _ | _, NaN => NaN
  | PInf, PInf | NInf, NInf => PInf
  | PInf, NInf | NInf, PInf => NInf
  | PInf, Fin x | Fin x, PInf => sgn_inf x
  | NInf, Fin x | Fin x, NInf => sgn_inf (- x)
  end.
Definition xdiv (a b : xR) : xR :=
  match a, b with
  | Fin x, Fin y => if Req_EM_T y 0 then sgn_inf x else Fin (x / y)
  | NaN, _ | _, NaN => NaN
  | Fin _, (PInf | NInf) => Fin 0
  | (PInf | NInf), (PInf | NInf) => NaN
  | PInf, Fin y => if Rlt_dec y 0 then NInf else PInf
  | NInf, Fin y => if Rlt_dec y 0 then PInf else NInf
  end.
Definition xabs (a : xR) : xR :=
  match a with Fin x => Fin (Rabs x) | PInf | NInf => PInf | NaN => NaN end.
Definition xsqrt (a : xR) : xR :=
  match a with
  | Fin x => if Rlt_dec x 0 then NaN else Fin (sqrt x)
  | PInf => PInf | _ => NaN
  end.
Definition xlift (f : R -> R) (a : xR) : xR := match a with Fin x => Fin (f x) | _ => NaN end.
Definition xacos (a : xR) : xR :=
  match a with
  | Fin x => if Rle_dec (-1) x then if Rle_dec x 1 then Fin (acos x) else NaN else NaN
  | _ => NaN
  end.
Definition atan2R (y x : R) : R :=
  if Rlt_dec 0 x then atan (y / x)
  else if Rlt_dec x 0 then
    if Rlt_dec y 0 then atan (y / x) - PI else atan (y / x) + PI
  else if Rlt_dec 0 y then PI / 2 else if Rlt_dec y 0 then - (PI / 2) else 0.
Definition xatan2 (a b : xR) : xR :=
  match a, b with Fin y, Fin x => Fin (atan2R y x) | _, _ => NaN end.
(** truncation towards zero *)
Definition Rtrunc (x : R) : R := if Rlt_dec x 0 then - IZR (Int_part (- x)) else IZR (Int_part x).
Definition xrem (a b : xR) : xR :=
  match a, b with
  | Fin x, Fin y => if Req_EM_T y 0 then NaN else Fin (x - y * Rtrunc (x / y))
  | Fin x, (PInf | NInf) => Fin x
  | _, _ => NaN
  end.
Definition xlt (a b : xR) : bool :=
  match a, b with
  | Fin x, Fin y => Rltb x y
  | NaN, _ | _, NaN => false
  | NInf, NInf => false | NInf, _ => true
  | _, NInf => false
  | PInf, _ => false | _, PInf => true
  end.
Definition xeq (a b : xR) : bool :=
  match a, b with
  | Fin x, Fin y => Reqb x y | PInf, PInf | NInf, NInf => true | _, _ => false
  end.
Definition xle (a b : xR) : bool :=
  match a, b with Fin x, Fin y => Rleb x y | _, _ => xlt a b || xeq a b end.
(** total_cmp: -inf < finite < +inf < NaN *)
Definition xtle (a b : xR) : bool :=
  match a, b with _, NaN => true | NaN, _ => false | _, _ => xle a b end.
Definition xfin (a : xR) : bool := match a with Fin _ => true | _ => false end.

#[global] Instance ArithR : Arith xR := {
  fadd := xadd; fsub := xsub; fmul := xmul; fdiv := xdiv; fneg := xneg; fabs := xabs;
  fsqrt := xsqrt; fsin := xlift sin; fcos := xlift cos; facos := xacos; fatan2 := xatan2;
  frem := xrem; flt := xlt; fle := xle; feq := xeq; ftle := xtle; ffin := xfin;
  flit := fun m k => Fin (IZR m / 10 ^ k);
  finf := PInf; fpi := Fin PI; ftau := Fin (2 * PI)
}.
