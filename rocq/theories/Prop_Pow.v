(** * Powers of spinors on binary64 numbers.

    Only statements; proofs are in PowAcc.v.  The math library is arbitrary up
    to the stated error of its functions. *)

Require Import Reals ZArith List Bool Lra.
From Flocq Require Import Core BinarySingleNaN.
Require Import Verif.Num Verif.Types Verif.Priv Verif.OpsMul Verif.Const Verif.Func Verif.SpecCl Verif.RealInst
  Verif.SpecFunc Verif.SpecExp Verif.B64 Verif.SpecValid Verif.SpecRound Verif.SpecAcc Verif.RootAcc Verif.SpecPow Verif.PowAcc.
Local Open Scope R_scope.

(** C99 *)
(** One exact logarithm [X] stands behind all the powers: its scalar part is
    the logarithm of the norm and its bivector part at most half a turn, up to
    rounding; its exponential is the spinor, as nearly as the logarithm is
    accurate; and every power is the exponential of the multiple of [X], with a
    relative error of a few units in the last place. *)
Theorem C99_powers : forall (L : Libm f64) eps,
  trig_within eps L -> exp_within eps L -> log_within eps L -> atan2_within eps L -> eps <= bpow radix2 (-40) ->
  forall (s : Spinor f64) (plane : BiVector f64), root_domain s plane ->
  let S := exactly TSpin s in let N := cnorm S in let err := eps * (4 + 2 * Rabs (ln N)) in
  exists X : Spinor R,
    Rabs (sca_0 (spinSca X) - ln N) <= eps * (2 + Rabs (ln N)) + 9 * unit_roundoff /\
    cnorm (den TBiv (spinBiv X)) <= PI + eps + 64 * unit_roundoff /\
    (forall E, is_cexp (den TSpin X) E -> cnorm (csub E S) <= N * (err + bpow radix2 (-22)) /\
      (bpow radix2 (-23) * N <= cnorm (exactly TBiv (spinBiv s)) -> cnorm (csub E S) <= N * (err + 128 * unit_roundoff))) /\
    (forall t E, exponent t -> is_cexp (cscale (B2R t) (den TSpin X)) E -> all_finite TSpin (powered s plane t) /\
      cnorm (csub (exactly TSpin (powered s plane t)) E) <= cnorm E * (5 * eps + (90 + 2 * Rabs (ln N)) * unit_roundoff)).
Proof. exact @powers. Qed.
Print Assumptions C99_powers.
(** The norm of a power is the power of the norm. *)
Theorem C99_norm : forall (L : Libm f64) eps,
  trig_within eps L -> exp_within eps L -> log_within eps L -> atan2_within eps L -> eps <= bpow radix2 (-40) ->
  forall (s : Spinor f64) (plane : BiVector f64) (t : f64), root_domain s plane -> exponent t ->
  let N := cnorm (exactly TSpin s) in
  Rabs (cnorm (exactly TSpin (powered s plane t)) - Rpower N (B2R t)) <=
    Rpower N (B2R t) * (eps * (8 + 2 * Rabs (ln N)) + (110 + 3 * Rabs (ln N)) * unit_roundoff).
Proof. exact @power_norm. Qed.
Print Assumptions C99_norm.
(** Exponents add. *)
Theorem C99_add : forall (L : Libm f64) eps,
  trig_within eps L -> exp_within eps L -> log_within eps L -> atan2_within eps L -> eps <= bpow radix2 (-40) ->
  forall (s : Spinor f64) (plane : BiVector f64) (a b c : f64), root_domain s plane ->
  exponent a -> exponent b -> exponent c -> B2R c = B2R a + B2R b ->
  let N := cnorm (exactly TSpin s) in
  cnorm (csub (gp (exactly TSpin (powered s plane a)) (exactly TSpin (powered s plane b))) (exactly TSpin (powered s plane c))) <=
    Rpower N (B2R c) * (16 * eps + (280 + 7 * Rabs (ln N)) * unit_roundoff).
Proof. exact @power_add. Qed.
Print Assumptions C99_add.
(** Opposite exponents give inverses. *)
Theorem C99_inverse : forall (L : Libm f64) eps,
  trig_within eps L -> exp_within eps L -> log_within eps L -> atan2_within eps L -> eps <= bpow radix2 (-40) ->
  forall (s : Spinor f64) (plane : BiVector f64) (a b : f64), root_domain s plane ->
  exponent a -> B2R b = - B2R a -> is_finite b = true ->
  let N := cnorm (exactly TSpin s) in
  cnorm (csub (gp (exactly TSpin (powered s plane a)) (exactly TSpin (powered s plane b))) cone) <=
    11 * eps + (190 + 5 * Rabs (ln N)) * unit_roundoff.
Proof. exact @power_inverse. Qed.
Print Assumptions C99_inverse.
(** The angle of a small rotation is lost by every power: where the bivector
    part is below 2^-31 of the norm, the powers have none. *)
Theorem C99_small_angles_refuted : forall (L : Libm f64) (s : Spinor f64) (plane : BiVector f64) (t : f64), log_domain s -> is_finite t = true ->
  cnorm (exactly TBiv (spinBiv s)) <= bpow radix2 (-31) * cnorm (exactly TSpin s) -> 0 < B2R (sca_0 (spinSca s)) ->
  cnorm (exactly TBiv (spinBiv (powered s plane t))) = 0.
Proof. exact power_vanishes. Qed.
Print Assumptions C99_small_angles_refuted.

Example C99_example : root_domain
    (mkSpin (Sca (f64_lit 3 0)) (Biv (f64_lit 4 0) (f64_lit 0 0) (f64_lit 0 0))) (Biv (f64_lit 0 0) (f64_lit 1 0) (f64_lit 0 0)) /\
  let half := f64_lit 1 (-1) in let quarter := f64_lit 1 (-2) in let both := f64_lit 3 (-2) in
  exponent half /\ exponent quarter /\ exponent both /\ B2R both = B2R half + B2R quarter /\
  exponent (f64_lit (-1) (-2)) /\ B2R (f64_lit (-1) (-2)) = - B2R quarter.
Proof. exact (conj example_root_domain example_exponents). Qed.
Example C99_example_small : let s := mkSpin (Sca (f64_lit 1 0)) (Biv (f64_lit 1 (-40)) (f64_lit 0 0) (f64_lit 0 0)) in
  log_domain s /\ 0 < B2R (sca_0 (spinSca s)) /\ 0 < cnorm (exactly TBiv (spinBiv s)) <= bpow radix2 (-31) * cnorm (exactly TSpin s).
Proof. exact example_small_angle. Qed.
