(** * The model run on IEEE 754 binary64 numbers.

    [f64] is Flocq's type of binary64 numbers with a single NaN: signed zeros,
    infinities and subnormals are all present, NaN payloads are not.  Every
    operation is rounded to nearest, ties to even, which is what C++ [double]
    does on the platforms the library supports (no fused operations, no
    extended precision).  The math library stays arbitrary. *)

Require Import ZArith Bool.
From Flocq Require Import Core BinarySingleNaN.
Require Import Verif.Num.

Global Instance prec53 : Prec_gt_0 53 := eq_refl.
Global Instance emax1024 : Prec_lt_emax 53 1024 := eq_refl.

Definition f64 : Type := binary_float 53 1024.

(** The number [m * 2^e], rounded. *)
Definition f64_lit (m e : Z) : f64 := binary_normalize 53 1024 _ _ mode_NE m e false.

(** [std::isnormal]: finite, not zero and not subnormal. *)
Definition f64_isnormal (x : f64) : bool :=
  match x with
  | B754_finite _ m _ _ => Z.leb (2 ^ 52) (Zpos m)
  | _ => false
  end.

Global Instance Ring0_B : Ring0 f64 := {|
  nzero := B754_zero false;
  none_ := f64_lit 1 0;
  nadd := Bplus mode_NE;
  nsub := Bminus mode_NE;
  nmul := Bmult mode_NE;
  nopp := Bopp
|}.

Global Instance Arith_B : Arith f64 := {|
  ndiv := Bdiv mode_NE;
  nsqrt := Bsqrt mode_NE;
  nabs := Babs;
  nltb := Bltb;
  neqb := Beqb;
  nisnormal := f64_isnormal;
  nnan := B754_nan;
  nlit := f64_lit
|}.
