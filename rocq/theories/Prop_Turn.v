(** * C88: turns by a given angle about a given plane. *)

Require Import Reals ZArith List.
From Flocq Require Import Core BinarySingleNaN.
Require Import Verif.Num Verif.Types Verif.OpsUni Verif.OpsMul Verif.Const Verif.Func Verif.Compare Verif.SpecCl Verif.SpecFunc Verif.B64
  Verif.SpecRound Verif.SpecValid Verif.SpecAcc Verif.ExpAcc Verif.SpecTurn Verif.TurnThm Verif.TurnEx.
Local Open Scope R_scope.

(** C88: the exponential of an angle times a direction is the turn by that
    angle about that plane. *)
Theorem C88_turn : forall (L : Libm f64) eps, trig_within eps L -> eps <= / 16 -> forall (b : BiVector f64) (a : f64),
  turn_plane b -> is_finite a = true -> bpow radix2 (-90) <= Rabs (B2R a) <= bpow radix2 90 ->
  let e := exp_Biv (mul TDub TBiv a (direction TBiv b)) in
  all_finite TSpin e /\ cnorm (csub (exactly TSpin e) (turn (B2R a) b)) <= 2 * eps + unit_roundoff * (16 + 33 * Rabs (B2R a)).
Proof. exact @turn_accurate. Qed.
Print Assumptions C88_turn.
(** Half, quarter and full turns: -1 (Euler's identity), the plane itself, 1. *)
Theorem C88_named : forall (L : Libm f64) eps, trig_within eps L -> eps <= / 16 -> forall b : BiVector f64, turn_plane b ->
  let close (a : f64) (k : R) (target : clf) := let e := exp_Biv (mul TDub TBiv a (direction TBiv b)) in
    all_finite TSpin e /\ cnorm (csub (exactly TSpin e) target) <= 2 * eps + k * unit_roundoff in
  close c_turnHalf 128 (cscale (-1) cone) /\
  close c_turnQtr 72 (cscale (/ cnorm (exactly TBiv b)) (exactly TBiv b)) /\
  close c_turnFull 240 cone.
Proof. exact @named_turns. Qed.
Print Assumptions C88_named.
(** As the library's comparison sees them, above 512 epsilon. *)
Theorem C88_accepted : forall L : Libm f64, trig_within (bpow radix2 (-50)) L -> forall (b : BiVector f64) (tol : f64), turn_plane b ->
  is_finite tol = true -> bpow radix2 (-43) < B2R tol ->
  let turned (a : f64) := exp_Biv (mul TDub TBiv a (direction TBiv b)) in
  (all_valid TSpin (turned c_turnHalf) -> nearlyEquals TSpin (turned c_turnHalf) (mkSpin (Sca (f64_lit (-1) 0)) zero_Biv) tol = true) /\
  (all_valid TSpin (turned c_turnQtr) -> all_valid TBiv (direction TBiv b) ->
     nearlyEquals TSpin (turned c_turnQtr) (mkSpin zero_Sca (direction TBiv b)) tol = true) /\
  (all_valid TSpin (turned c_turnFull) -> nearlyEquals TSpin (turned c_turnFull) (one TSpin) tol = true).
Proof. exact @turns_accept. Qed.
Print Assumptions C88_accepted.
(** The manual's example, with the default tolerance, holds for its plane
    e23 + e12. *)
Theorem C88_manual : forall L : Libm f64, trig_within (bpow radix2 (-53)) L ->
  nearlyEquals TSpin (exp_Biv (mul TDub TBiv c_turnHalf (direction TBiv plane101))) (mkSpin (Sca (f64_lit (-1) 0)) zero_Biv) lim_epsilon = true.
Proof. exact manual_accept. Qed.
Print Assumptions C88_manual.
(** It does not hold for an "arbitrary direction in space", whatever the math
    library: for 2 e23 + e31 + e12 it fails. *)
Theorem C88_manual_refuted : forall L : Libm f64, trig_within (bpow radix2 (-52)) L ->
  turn_plane plane211 /\
  nearlyEquals TSpin (exp_Biv (mul TDub TBiv c_turnHalf (direction TBiv plane211))) (mkSpin (Sca (f64_lit (-1) 0)) zero_Biv) lim_epsilon = false.
Proof. exact euler_refuted. Qed.
Print Assumptions C88_manual_refuted.
Example C88_example : trig_within (bpow radix2 (-53)) rounded_lib /\ trig_within (bpow radix2 (-52)) rounded_lib /\ trig_within (bpow radix2 (-50)) rounded_lib /\
  bpow radix2 (-53) <= / 16 /\ turn_plane plane101 /\ turn_plane plane211 /\
  is_finite (f64_lit 5 (-1)) = true /\ bpow radix2 (-90) <= Rabs (B2R (f64_lit 5 (-1))) <= bpow radix2 90.
Proof. exact turn_case. Qed.
Example C88_example_valid : all_valid TSpin (@exp_Biv f64 _ rounded_lib (mul TDub TBiv c_turnHalf (direction TBiv plane101))) /\
  all_valid TBiv (direction TBiv plane101).
Proof. exact turn_case_valid. Qed.
