(** * Accuracy of logarithm and square root of spinors on binary64 numbers.

    Only statements; proofs are in LogAcc.v and RootAcc.v.  The math library
    is arbitrary up to the stated error of its functions. *)

Require Import Reals ZArith List Bool Lra.
From Flocq Require Import Core BinarySingleNaN.
Require Import Verif.Num Verif.Types Verif.Priv Verif.OpsMul Verif.Const Verif.Func Verif.SpecCl
  Verif.SpecFunc Verif.SpecExp Verif.B64 Verif.SpecValid Verif.SpecRound Verif.SpecAcc Verif.ExpAcc Verif.LogAcc Verif.RootAcc.
Local Open Scope R_scope.

(** C62 *)
Theorem C62_log : forall (L : Libm f64) eps, log_within eps L -> atan2_within eps L -> eps <= / 8192 ->
  forall (s : Spinor f64) (plane : BiVector f64) E, log_domain s ->
  all_finite TBiv plane -> bpow radix2 (-480) <= cnorm (exactly TBiv plane) <= bpow radix2 480 ->
  is_cexp (exactly TSpin (logG2 s plane)) E ->
  let S := exactly TSpin s in let N := cnorm S in let err := eps * (4 + 2 * Rabs (ln N)) in
  all_finite TSpin (logG2 s plane) /\
  Rabs (B2R (sca_0 (spinSca (logG2 s plane))) - ln N) <= eps * (2 + Rabs (ln N)) + 9 * unit_roundoff /\
  cnorm (exactly TBiv (spinBiv (logG2 s plane))) <= PI + eps + 64 * unit_roundoff /\
  cnorm (csub E S) <= N * (err + bpow radix2 (-22)) /\
  (bpow radix2 (-23) * N <= cnorm (exactly TBiv (spinBiv s)) -> cnorm (csub E S) <= N * (err + 128 * unit_roundoff)).
Proof. exact @log_accurate. Qed.
Print Assumptions C62_log.
(** The angle itself is not accurate: where the bivector part is below 2^-31
    of the norm the logarithm has no bivector part at all, or a half turn in
    the plane supplied, whatever the plane of the spinor is. *)
Theorem C62_small_angles_refuted : forall (L : Libm f64) (s : Spinor f64) (plane : BiVector f64), log_domain s ->
  cnorm (exactly TBiv (spinBiv s)) <= bpow radix2 (-31) * cnorm (exactly TSpin s) ->
  (0 < B2R (sca_0 (spinSca s)) -> spinBiv (logG2 s plane) = zero_Biv) /\
  (B2R (sca_0 (spinSca s)) < 0 -> spinBiv (logG2 s plane) = scale TBiv c_turnHalf (direction TBiv plane)).
Proof. exact @log_vanishes. Qed.
Print Assumptions C62_small_angles_refuted.
Theorem C62_library : log_within (bpow radix2 (-50)) rounded_lib /\ atan2_within (bpow radix2 (-50)) rounded_lib.
Proof. exact library_log. Qed.
Print Assumptions C62_library.
Example C62_example_small : let s := mkSpin (Sca (f64_lit 1 0)) (Biv (f64_lit 1 (-40)) (f64_lit 0 0) (f64_lit 0 0)) in
  log_domain s /\ 0 < B2R (sca_0 (spinSca s)) /\ 0 < cnorm (exactly TBiv (spinBiv s)) <= bpow radix2 (-31) * cnorm (exactly TSpin s).
Proof. exact example_small_angle. Qed.

(** C63 *)
Theorem C63_exp_log : forall (L : Libm f64) eps,
  trig_within eps L -> exp_within eps L -> log_within eps L -> atan2_within eps L -> eps <= bpow radix2 (-40) ->
  forall (s : Spinor f64) (plane : BiVector f64), root_domain s plane ->
  let S := exactly TSpin s in let N := cnorm S in let err := eps * (9 + 2 * Rabs (ln N)) in
  let back := exp_Spin (logG2 s plane) in
  all_finite TSpin back /\
  cnorm (csub (exactly TSpin back) S) <= N * (err + bpow radix2 (-21)) /\
  (bpow radix2 (-23) * N <= cnorm (exactly TBiv (spinBiv s)) -> cnorm (csub (exactly TSpin back) S) <= N * (err + 256 * unit_roundoff)).
Proof. exact @exp_log_accurate. Qed.
Print Assumptions C63_exp_log.
Theorem C63_sqrt : forall (L : Libm f64) eps,
  trig_within eps L -> exp_within eps L -> log_within eps L -> atan2_within eps L -> eps <= bpow radix2 (-40) ->
  forall (s : Spinor f64) (plane : BiVector f64), root_domain s plane -> bpow radix2 (-49) <= cnorm (exactly TSpin s) ->
  let S := exactly TSpin s in let N := cnorm S in let Q := exactly TSpin (sqrtG2 s plane) in
  let err := eps * (13 + 2 * Rabs (ln N)) in
  all_finite TSpin (sqrtG2 s plane) /\
  cnorm (csub (gp Q Q) S) <= N * (err + bpow radix2 (-21)) /\
  (bpow radix2 (-23) * N <= cnorm (exactly TBiv (spinBiv s)) -> cnorm (csub (gp Q Q) S) <= N * (err + 256 * unit_roundoff)) /\
  - sqrt N * (5 * eps + 128 * unit_roundoff) <= B2R (sca_0 (spinSca (sqrtG2 s plane))).
Proof. exact @sqrt_accurate. Qed.
Print Assumptions C63_sqrt.
Theorem C63_library : trig_within (bpow radix2 (-50)) rounded_lib /\ exp_within (bpow radix2 (-50)) rounded_lib /\
  log_within (bpow radix2 (-50)) rounded_lib /\ atan2_within (bpow radix2 (-50)) rounded_lib.
Proof. exact library_all. Qed.
Print Assumptions C63_library.
Example C63_example : root_domain
  (mkSpin (Sca (f64_lit 3 0)) (Biv (f64_lit 4 0) (f64_lit 0 0) (f64_lit 0 0))) (Biv (f64_lit 0 0) (f64_lit 1 0) (f64_lit 0 0)).
Proof. exact example_root_domain. Qed.
