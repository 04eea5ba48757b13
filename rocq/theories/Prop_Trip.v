(** * C85: round trips under the library's own comparison. *)

Require Import Reals ZArith List.
From Flocq Require Import Core BinarySingleNaN.
Require Import Verif.Num Verif.Types Verif.OpsUni Verif.OpsMul Verif.Const Verif.Func Verif.Compare Verif.SpecCl Verif.SpecFunc Verif.B64
  Verif.SpecRound Verif.SpecValid Verif.SpecAcc Verif.SpecScale Verif.SpecTrip Verif.TripFacts Verif.TripThm Verif.RootAcc.
Local Open Scope R_scope.

(** C85: [nearlyEquals] accepts the exponential of the logarithm of a spinor
    as the spinor, and the square of its square root, for any tolerance above
    the error of the math library divided by the smallest part [k] that a
    component makes up of the norm. *)
Theorem C85_exp_log : forall (L : Libm f64) eps,
  trig_within eps L -> exp_within eps L -> log_within eps L -> atan2_within eps L -> eps <= bpow radix2 (-40) ->
  forall (s : Spinor f64) (plane : BiVector f64) k (tol t' : f64), root_domain s plane -> betweenv 199 TSpin s ->
  let N := cnorm (exactly TSpin s) in bpow radix2 (-23) <= k -> balanced k N TSpin s ->
  is_finite tol = true -> bpow radix2 (-60) <= B2R t' <= / 2 -> B2R t' < B2R tol ->
  eps * (9 + 2 * Rabs (ln N)) + 256 * unit_roundoff <= (1 - bpow radix2 (-47)) * B2R t' * k ->
  nearlyEquals TSpin (exp_Spin (logG2 s plane)) s tol = true.
Proof. exact @exp_log_accept. Qed.
Print Assumptions C85_exp_log.
Theorem C85_sqrt : forall (L : Libm f64) eps,
  trig_within eps L -> exp_within eps L -> log_within eps L -> atan2_within eps L -> eps <= bpow radix2 (-40) ->
  forall (s : Spinor f64) (plane : BiVector f64) k (tol t' : f64), root_domain s plane -> betweenv 199 TSpin s ->
  let N := cnorm (exactly TSpin s) in bpow radix2 (-49) <= N -> bpow radix2 (-23) <= k -> balanced k N TSpin s ->
  is_finite tol = true -> bpow radix2 (-60) <= B2R t' <= / 2 -> B2R t' < B2R tol ->
  eps * (13 + 2 * Rabs (ln N)) + 320 * unit_roundoff <= (1 - bpow radix2 (-47)) * B2R t' * k ->
  nearlyEquals TSpin (mul TSpin TSpin (sqrtG2 s plane) (sqrtG2 s plane)) s tol = true.
Proof. exact @sqrt_accept. Qed.
Print Assumptions C85_sqrt.
(** It accepts exp(b) exp(-b) as one. *)
Theorem C85_inverse : forall (L : Libm f64) eps, trig_within eps L -> eps <= / 16 ->
  forall (b : BiVector f64) (tol t' : f64), exp_domain b ->
  is_finite tol = true -> bpow radix2 (-60) <= B2R t' <= / 4 -> B2R t' < B2R tol ->
  6 * eps + 80 * unit_roundoff + 48 * unit_roundoff * cnorm (exactly TBiv b) <= (1 - bpow radix2 (-47)) * B2R t' ->
  nearlyEquals TSpin (mul TSpin TSpin (exp_Biv b) (exp_Biv (neg TBiv b))) (one TSpin) tol = true.
Proof. exact @inverse_accept. Qed.
Print Assumptions C85_inverse.
(** With a library good to 2^-50: tolerance 2^-28 will do for spinors whose
    components are at least 2^-10 of the norm, 2^-36 for bivectors of norm up
    to 1024. *)
Theorem C85_typical : forall L : Libm f64, let eps := bpow radix2 (-50) in
  trig_within eps L -> exp_within eps L -> log_within eps L -> atan2_within eps L ->
  forall (s : Spinor f64) (plane : BiVector f64) (tol : f64), root_domain s plane -> betweenv 199 TSpin s ->
  balanced (bpow radix2 (-10)) (cnorm (exactly TSpin s)) TSpin s -> is_finite tol = true -> bpow radix2 (-29) < B2R tol ->
  nearlyEquals TSpin (exp_Spin (logG2 s plane)) s tol = true /\
  (bpow radix2 (-49) <= cnorm (exactly TSpin s) -> nearlyEquals TSpin (mul TSpin TSpin (sqrtG2 s plane) (sqrtG2 s plane)) s tol = true).
Proof. exact @trips_typical. Qed.
Print Assumptions C85_typical.
Theorem C85_typical_inverse : forall L : Libm f64, trig_within (bpow radix2 (-50)) L ->
  forall (b : BiVector f64) (tol : f64), exp_domain b ->
  cnorm (exactly TBiv b) <= 1024 -> is_finite tol = true -> bpow radix2 (-37) < B2R tol ->
  nearlyEquals TSpin (mul TSpin TSpin (exp_Biv b) (exp_Biv (neg TBiv b))) (one TSpin) tol = true.
Proof. exact @inverse_typical. Qed.
Print Assumptions C85_typical_inverse.
(** The condition on the components cannot be dropped: for 1 + 2^-40 e23 the
    comparison fails with every tolerance up to one, whatever the library. *)
Theorem C85_unbalanced_refuted : forall (L : Libm f64) (plane : BiVector f64) (tol : f64), Bleb tol none_ = true ->
  nearlyEquals TSpin (exp_Spin (logG2 small_angle plane)) small_angle tol = false.
Proof. exact @small_angle_rejected. Qed.
Print Assumptions C85_unbalanced_refuted.
Example C85_example : root_domain trip_case (Biv (f64_lit 0 0) (f64_lit 1 0) (f64_lit 0 0)) /\ betweenv 199 TSpin trip_case /\
  bpow radix2 (-49) <= cnorm (exactly TSpin trip_case) /\ balanced (bpow radix2 (-10)) (cnorm (exactly TSpin trip_case)) TSpin trip_case.
Proof. exact example_trip. Qed.
Example C85_example_bivector : exp_domain (Biv (f64_lit 3 0) (f64_lit 0 0) (f64_lit (-4) 0)).
Proof. exact ExpAcc.example_exp_domain. Qed.
