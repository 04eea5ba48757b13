(** * Specification vocabulary: powers of spinors on binary64. *)

Require Import Reals ZArith.
From Flocq Require Import Core BinarySingleNaN.
Require Import Verif.Num Verif.Types Verif.OpsMul Verif.Func Verif.B64.
Local Open Scope R_scope.

(** The client expression [exp(t * logG2(s, plane))]: g3func.hpp:558-567 and
    711-768, g3opsMul_double.hpp (double times Spinor). *)
Definition powered {L : Libm f64} (s : Spinor f64) (plane : BiVector f64) (t : f64) : Spinor f64 :=
  exp_Spin (mul_Dub_Spin t (logG2 s plane)).

(** Exponents: between -1 and 1, and not below 2^-36. *)
Definition exponent (t : f64) : Prop := is_finite t = true /\ bpow radix2 (-36) <= Rabs (B2R t) <= 1.
