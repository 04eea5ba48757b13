(** * C86: computed angles. *)

Require Import Reals ZArith List.
From Flocq Require Import Core BinarySingleNaN.
Require Import Verif.Num Verif.Types Verif.OpsUni Verif.OpsMul Verif.Const Verif.Func Verif.SpecCl Verif.SpecFunc Verif.B64
  Verif.SpecRound Verif.SpecValid Verif.SpecAcc Verif.SpecAngle Verif.RootAcc Verif.LogAcc Verif.AngleFacts Verif.AngleEx.
Local Open Scope R_scope.

(** C86: the norm of the bivector part of [logG2] is half the angle of the
    rotation. *)
Theorem C86_spinor : forall (L : Libm f64) eps, atan2_within eps L -> eps <= / 8192 ->
  forall (s : Spinor f64) (plane : BiVector f64) th, log_domain s ->
  all_finite TBiv plane -> bpow radix2 (-480) <= cnorm (exactly TBiv plane) <= bpow radix2 480 -> half_angle s th ->
  let phi := magnitude TBiv (spinBiv (logG2 s plane)) in
  is_finite phi = true /\ Rabs (B2R phi - th) <= 4 * eps + bpow radix2 (-20) /\
  (bpow radix2 (-22) <= sin th -> Rabs (B2R phi - th) <= 4 * eps + 380 * unit_roundoff).
Proof. exact @spinor_half_angle. Qed.
Print Assumptions C86_spinor.
(** For the product of two vectors it is the angle between them. *)
Theorem C86_vectors : forall (L : Libm f64) eps, atan2_within eps L -> eps <= / 8192 ->
  forall (a b : Vector f64) (plane : BiVector f64) th, all_finite TVec a -> all_finite TVec b -> log_domain (mul TVec TVec b a) ->
  all_finite TBiv plane -> bpow radix2 (-480) <= cnorm (exactly TBiv plane) <= bpow radix2 480 ->
  bpow radix2 (-500) <= cnorm (exactly TVec a) * cnorm (exactly TVec b) -> angle_between a b th ->
  let phi := magnitude TBiv (spinBiv (logG2 (mul TVec TVec b a) plane)) in
  is_finite phi = true /\ Rabs (B2R phi - th) <= 4 * eps + bpow radix2 (-20) /\
  (bpow radix2 (-22) <= sin th -> Rabs (B2R phi - th) <= 4 * eps + 480 * unit_roundoff).
Proof. exact @between_angle. Qed.
Print Assumptions C86_vectors.
(** The logarithm of the exponential of a bivector is the bivector. *)
Theorem C86_log_exp : forall (L : Libm f64) eps, trig_within eps L -> atan2_within eps L -> log_within eps L -> eps <= bpow radix2 (-28) ->
  forall (b plane : BiVector f64), exp_domain b -> first_clear b (cnorm (exactly TBiv b)) ->
  all_finite TBiv plane -> bpow radix2 (-480) <= cnorm (exactly TBiv plane) <= bpow radix2 480 ->
  bpow radix2 (-20) <= cnorm (exactly TBiv b) <= 3 / 2 ->
  let l := logG2 (exp_Biv b) plane in
  all_finite TSpin l /\ Rabs (B2R (sca_0 (spinSca l))) <= 7 * eps + 100 * unit_roundoff /\
  cnorm (csub (exactly TBiv (spinBiv l)) (exactly TBiv b)) <= 32 * eps + 1300 * unit_roundoff.
Proof. exact @log_exp. Qed.
Print Assumptions C86_log_exp.
(** Small angles come out as zero, with no relative accuracy whatever: so for
    e2 and e2 + 2^-40 e3. *)
Theorem C86_small : forall (L : Libm f64) (a b : Vector f64) (plane : BiVector f64), let s := mul TVec TVec b a in log_domain s ->
  cnorm (exactly TBiv (spinBiv s)) <= bpow radix2 (-31) * cnorm (exactly TSpin s) -> 0 < B2R (sca_0 (spinSca s)) ->
  B2R (magnitude TBiv (spinBiv (logG2 s plane))) = 0.
Proof. exact @small_angle_lost. Qed.
Print Assumptions C86_small.
Theorem C86_relative_refuted : forall (L : Libm f64) (plane : BiVector f64),
  B2R (magnitude TBiv (spinBiv (logG2 (mul TVec TVec slight_b slight_a) plane))) = 0 /\
  forall th, angle_between slight_a slight_b th -> 0 < th.
Proof. exact slight_refuted. Qed.
Print Assumptions C86_relative_refuted.
Example C86_example : all_finite TVec right_a /\ all_finite TVec right_b /\ log_domain (mul TVec TVec right_b right_a) /\
  bpow radix2 (-500) <= cnorm (exactly TVec right_a) * cnorm (exactly TVec right_b) /\ angle_between right_a right_b (PI / 2) /\
  half_angle (mul TVec TVec right_b right_a) (PI / 2) /\ bpow radix2 (-22) <= sin (PI / 2).
Proof. exact example_right. Qed.
Example C86_example_plane : all_finite TBiv (c_e23 : BiVector f64) /\ bpow radix2 (-480) <= cnorm (exactly TBiv (c_e23 : BiVector f64)) <= bpow radix2 480.
Proof. exact e23_plane. Qed.
Example C86_example_turn : exp_domain turn_case /\ first_clear turn_case (cnorm (exactly TBiv turn_case)) /\
  bpow radix2 (-20) <= cnorm (exactly TBiv turn_case) <= 3 / 2.
Proof. exact example_turn. Qed.
Example C86_example_slight : let s := mul TVec TVec slight_b slight_a in log_domain s /\ 0 < B2R (sca_0 (spinSca s)) /\
  0 < cnorm (exactly TBiv (spinBiv s)) <= bpow radix2 (-31) * cnorm (exactly TSpin s).
Proof. exact example_slight. Qed.
