(** * Specification: accuracy of the complex functions of the library. *)

Require Import Reals ZArith List.
From Flocq Require Import Core BinarySingleNaN.
Require Import Verif.Num Verif.Types Verif.B64.
Local Open Scope R_scope.

(** Complex numbers as pairs of reals. *)
Definition zof (z : f64 * f64) : R * R := (B2R (fst z), B2R (snd z)).
Definition zfin (z : f64 * f64) : Prop := is_finite (fst z) = true /\ is_finite (snd z) = true.
Definition zmul (z w : R * R) : R * R := (fst z * fst w - snd z * snd w, fst z * snd w + snd z * fst w).
Definition zsub (z w : R * R) : R * R := (fst z - fst w, snd z - snd w).
Definition zabs (z : R * R) : R := sqrt (fst z * fst z + snd z * snd z).

(** A library of complex functions with relative error [eps] for results (and
    divisors) that are neither very large nor very small, a square root near
    one in the right half plane also for small arguments, and zero for the
    product with zero and for the absolute value of zero. *)
Record complex_within (eps : R) (L : Libm f64) : Prop := {
  abs_within : forall z, zfin z -> bpow radix2 (-500) <= zabs (zof z) <= bpow radix2 500 ->
    is_finite (mcabs z) = true /\ Rabs (B2R (mcabs z) - zabs (zof z)) <= eps * zabs (zof z);
  mul_within : forall z w, zfin z -> zfin w -> bpow radix2 (-500) <= zabs (zof z) * zabs (zof w) <= bpow radix2 500 ->
    zfin (mcmul z w) /\ zabs (zsub (zof (mcmul z w)) (zmul (zof z) (zof w))) <= eps * (zabs (zof z) * zabs (zof w));
  div_within : forall z w, zfin z -> zfin w -> bpow radix2 (-400) <= zabs (zof z) <= bpow radix2 400 ->
    bpow radix2 (-400) <= zabs (zof w) <= bpow radix2 400 ->
    zfin (mcdiv z w) /\ zabs (zsub (zmul (zof (mcdiv z w)) (zof w)) (zof z)) <= eps * zabs (zof z);
  sqrt_within : forall z, zfin z -> zabs (zof z) <= bpow radix2 900 ->
    zfin (mcsqrt z) /\ exists s, zmul s s = zof z /\ 0 <= fst s /\
      zabs (zsub (zof (mcsqrt z)) s) <= eps * zabs s + bpow radix2 (-500);
  zero_within : (forall z w, zfin z -> zfin w -> zof z = (0, 0) -> zfin (mcmul z w) /\ zof (mcmul z w) = (0, 0)) /\
    (forall z, zfin z -> zof z = (0, 0) -> is_finite (mcabs z) = true /\ B2R (mcabs z) = 0)
}.
