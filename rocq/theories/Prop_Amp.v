(** * Amplitude and inverses through complex numbers on binary64.

    Only statements; proofs are in AmpFacts.v, AmpThm.v, AmpInv.v and AmpEx.v. *)

Require Import Reals ZArith List Bool Lra.
From Flocq Require Import Core BinarySingleNaN.
Require Import Verif.Num Verif.Types Verif.Const Verif.Func Verif.SpecCl Verif.SpecFunc Verif.B64 Verif.SpecRound Verif.SpecAmp
  Verif.AmpFacts Verif.AmpThm Verif.AmpInv Verif.AmpEx.
Import ListNotations.
Local Open Scope R_scope.

(** C73: the squared amplitude of every type is within 14 unit roundoffs times
    the squared norm of the product with the dirverse. *)
Theorem C73_squared_amplitude : forall t f (x : val f64 t), ampSq t = Some f -> all_finite t x ->
  bpow radix2 (-400) <= cnorm (exactly t x) <= bpow radix2 400 ->
  let X := exactly t x in
  all_finite TCplx (f x) /\ cnorm (csub (exactly TCplx (f x)) (gp X (cdir X))) <= 14 * unit_roundoff * cnorm2 X.
Proof. exact ampSq_norm. Qed.
Print Assumptions C73_squared_amplitude.

(** The amplitude squares to it, with a real part that is not below zero but
    for rounding, for every library of complex functions of accuracy [eps]. *)
Theorem C73_amplitude : forall (L : Libm f64) eps, 0 <= eps <= bpow radix2 (-10) -> complex_within eps L ->
  forall t f (x : val f64 t), amplitude t = Some f -> all_finite t x ->
  bpow radix2 (-400) <= cnorm (exactly t x) <= bpow radix2 400 ->
  let X := exactly t x in let A := exactly TCplx (f x) in
  all_finite TCplx (f x) /\ - (2 * eps + unit_roundoff) * cnorm X <= A bS /\
  cnorm (csub (gp A A) (gp X (cdir X))) <= (3 * eps + 15 * unit_roundoff) * cnorm2 X.
Proof. exact amplitude_error. Qed.
Print Assumptions C73_amplitude.

(** For scalars, bivectors and spinors it is the magnitude. *)
Theorem C73_amplitude_even : forall (L : Libm f64) eps, 0 <= eps <= bpow radix2 (-10) -> complex_within eps L ->
  forall t f (x : val f64 t), t = TSca \/ t = TBiv \/ t = TSpin -> amplitude t = Some f -> all_finite t x ->
  bpow radix2 (-400) <= cnorm (exactly t x) <= bpow radix2 400 ->
  let X := exactly t x in let A := exactly TCplx (f x) in
  cnorm (csub A (cscale (cnorm X) cone)) <= (2 * eps + 15 * unit_roundoff) * cnorm X.
Proof. exact amplitude_even. Qed.
Print Assumptions C73_amplitude_even.

(** Inverses of complex numbers. *)
Theorem C73_inverse_complex : forall (L : Libm f64) eps, 0 <= eps <= bpow radix2 (-10) -> complex_within eps L ->
  forall x : ComPlex f64, all_finite TCplx x -> bpow radix2 (-180) <= cnorm (exactly TCplx x) <= bpow radix2 180 ->
  let y := inverse_Cplx x in
  all_finite TCplx y /\ cnorm (csub (gp (exactly TCplx x) (exactly TCplx y)) cone) <= 4 * eps.
Proof. exact inverse_Cplx_error. Qed.
Print Assumptions C73_inverse_complex.

(** Inverses of multivectors, from both sides; the error is that of the
    library and rounding errors times the condition |X|^2 / |X dirverse(X)|. *)
Theorem C73_inverse_multivector : forall (L : Libm f64) eps, 0 <= eps <= bpow radix2 (-10) -> complex_within eps L ->
  forall x : MultiVector f64, all_finite TMvec x ->
  let X := exactly TMvec x in let c := cnorm (gp X (cdir X)) in
  cnorm X <= bpow radix2 50 -> bpow radix2 (-100) <= c -> cnorm2 X <= bpow radix2 46 * c ->
  let Y := exactly TMvec (inverse_Mvec x) in
  all_finite TMvec (inverse_Mvec x) /\
  cnorm (csub (gp X Y) cone) <= 4 * eps + 40 * unit_roundoff * (cnorm2 X / c) /\
  cnorm (csub (gp Y X) cone) <= 4 * eps + 40 * unit_roundoff * (cnorm2 X / c).
Proof. exact inverse_Mvec_error. Qed.
Print Assumptions C73_inverse_multivector.

(** For components that are integers of at most 24 bits whatever the condition:
    an inverse if there is one and only NaN if there is none. *)
Theorem C73_inverse_integers : forall (L : Libm f64) eps, 0 <= eps <= bpow radix2 (-10) -> complex_within eps L ->
  forall x : MultiVector f64, small_integers TMvec x ->
  let X := exactly TMvec x in let c := cnorm (gp X (cdir X)) in let Y := exactly TMvec (inverse_Mvec x) in
  ((exists Z, ceq (gp X Z) cone) ->
    all_finite TMvec (inverse_Mvec x) /\
    cnorm (csub (gp X Y) cone) <= 4 * eps + 21 * unit_roundoff * (cnorm2 X / c) /\
    cnorm (csub (gp Y X) cone) <= 4 * eps + 21 * unit_roundoff * (cnorm2 X / c)) /\
  ((~ exists Z, ceq (gp X Z) cone) -> Forall (fun v : f64 => is_nan v = true) (elems TMvec (inverse_Mvec x))).
Proof. exact inverse_integer. Qed.
Print Assumptions C73_inverse_integers.

(** In general not: "Algebraic inverse of MultiVector (or null if no inverse)"
    (g3func.hpp:496) fails for 268435475 + 161061285 e1 + 214748380 e2, with
    every library. *)
Theorem C73_singular_refuted : exists x : MultiVector f64, all_finite TMvec x /\
  (~ exists Y, ceq (gp (exactly TMvec x) Y) cone) /\
  forall eps L, 0 <= eps <= bpow radix2 (-10) -> complex_within eps L ->
    all_finite TMvec (@inverse_Mvec f64 Arith_B L x).
Proof. exact singular_refuted. Qed.
Print Assumptions C73_singular_refuted.

(** Correctly rounded functions are such a library; 1 + 2 e1 - 3 e2 + 5 e3 +
    4 e23 - e12 + 2 e123 meets all conditions. *)
Example C73_example_library : complex_within (bpow radix2 (-52)) complex_lib.
Proof. exact complex_lib_within. Qed.
Example C73_example : small_integers TMvec invertible /\ all_finite TMvec invertible /\
  (let X := exactly TMvec invertible in let c := cnorm (gp X (cdir X)) in
   cnorm X <= bpow radix2 50 /\ bpow radix2 (-100) <= c /\ cnorm2 X <= bpow radix2 46 * c) /\
  (exists Y, ceq (gp (exactly TMvec invertible) Y) cone).
Proof. exact (conj invertible_small invertible_meets). Qed.
