(** * IEEE-754 binary64 (round to nearest even) from the standard library's SpecFloat

    sin, cos, acos, atan2 come from the platform's libm and are arbitrary functions
    ([libm]).  NaN payloads and signs are not modelled. *)
From Coq Require Import ZArith Bool Floats.SpecFloat.
From Verif Require Import Arith.
Local Open Scope Z_scope.

Record libm := mkLibm {
  lm_sin : spec_float -> spec_float; lm_cos : spec_float -> spec_float;
  lm_acos : spec_float -> spec_float; lm_atan2 : spec_float -> spec_float -> spec_float }.

Definition prec64 : Z := 53.
Definition emax64 : Z := 1024.

Definition of_Z64 (m : Z) : spec_float := binary_normalize prec64 emax64 m 0 false.
(** A decimal literal m * 10^-k: |m| < 2^53 and k <= 22 in every use, so numerator and
    denominator are exact and the correctly rounded quotient is the correctly rounded literal. *)
Definition lit64 (m : Z) (k : nat) : spec_float :=
  match k with
  | O => of_Z64 m
  | _ => SFdiv prec64 emax64 (of_Z64 m) (of_Z64 (10 ^ Z.of_nat k))
  end.

(** a % b: exact remainder with the sign of a *)
Definition rem64 (a b : spec_float) : spec_float :=
  match a, b with
  | S754_nan, _ | _, S754_nan | S754_infinity _, _ | _, S754_zero _ => S754_nan
  | S754_zero s, _ => S754_zero s
  | _, S754_infinity _ => a
  | S754_finite sa ma ea, S754_finite _ mb eb =>
      let e := Z.min ea eb in
      let r := (Zpos ma * 2 ^ (ea - e)) mod (Zpos mb * 2 ^ (eb - e)) in
      binary_normalize prec64 emax64 (if sa then - r else r) e sa
  end.

Definition fin64 (a : spec_float) : bool :=
  match a with S754_zero _ | S754_finite _ _ _ => true | _ => false end.

(** total_cmp: -inf < ... < -0 < +0 < ... < +inf < NaN *)
Definition tle64 (a b : spec_float) : bool :=
  match a, b with
  | _, S754_nan => true
  | S754_nan, _ => false
  | S754_zero sa, S754_zero sb => sa || negb sb
  | _, _ => SFleb a b
  end.

(** std::f64::consts::PI = 0x1.921fb54442d18p+1, TAU = 2 PI *)
Definition pi64 : spec_float := S754_finite false 7074237752028440 (-51).
Definition tau64 : spec_float := S754_finite false 7074237752028440 (-50).

Definition ArithF (L : libm) : Arith spec_float := {|
  fadd := SFadd prec64 emax64; fsub := SFsub prec64 emax64;
  fmul := SFmul prec64 emax64; fdiv := SFdiv prec64 emax64;
  fneg := SFopp; fabs := SFabs; fsqrt := SFsqrt prec64 emax64;
  fsin := lm_sin L; fcos := lm_cos L; facos := lm_acos L; fatan2 := lm_atan2 L;
  frem := rem64; flt := SFltb; fle := SFleb; feq := SFeqb; ftle := tle64; ffin := fin64;
  flit := lit64; finf := S754_infinity false; fpi := pi64; ftau := tau64
|}.

(** Sanity checks of the literals against the binary64 values rustc uses. *)
Example lit_half : lit64 5 1 = S754_finite false 4503599627370496 (-53). Proof. reflexivity. Qed.
Example lit_1em6 : lit64 1 6 = S754_finite false 4722366482869645 (-72). Proof. vm_compute. reflexivity. Qed.
Example lit_c1 : lit64 1 4 = S754_finite false 7378697629483821 (-66). Proof. vm_compute. reflexivity. Qed.
Example lit_c2 : lit64 9 1 = S754_finite false 8106479329266893 (-53). Proof. vm_compute. reflexivity. Qed.
Example lit_1em16 : lit64 1 16 = S754_finite false 8112963841460668 (-106). Proof. vm_compute. reflexivity. Qed.
