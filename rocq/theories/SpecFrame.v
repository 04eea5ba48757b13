(** * The README's example: into the frame of a body.

    README.md:229-259.  The attitude of a body from three angles, positions,
    forces and moments expressed in its frame, the attitude as one angle. *)

Require Import Reals ZArith List.
From Flocq Require Import Core BinarySingleNaN.
Require Import Verif.Num Verif.Types Verif.Priv Verif.OpsUni Verif.OpsAdd Verif.OpsSub Verif.OpsMul Verif.Const Verif.Func
  Verif.B64 Verif.SpecCl Verif.SpecFunc Verif.SpecExp Verif.SpecRound Verif.SpecAcc Verif.SpecLoop.
Import ListNotations.
Local Open Scope R_scope.

Section Ring.
Context {F : Type} `{Ring0 F}.
(** README.md:251-252, spin * value * reverse(spin) *)
Definition turned (s : Spinor F) (t : ty) (v : val F t) : val F (mulTy (mulTy TSpin t) TSpin) :=
  mul _ TSpin (mul TSpin t s v) (reverse TSpin s).
(** README.md:248-249, spin * (pos - loc) * reverse(spin) *)
Definition into_frame (s : Spinor F) (loc pos : Vector F) : ImSpin F := turned s TVec (sub TVec TVec pos loc).
(** Back again: reverse(spin) * pos * spin + loc *)
Definition out_of_frame (s : Spinor F) (loc pos : Vector F) : Vector F :=
  add TVec TVec (imspVec (turned (reverse TSpin s) TVec pos)) loc.
End Ring.
Section Client.
Context {F : Type} `{Arith F}.
(** exp(.5*angle) *)
Definition half_angle_rotor {L : Libm F} (b : BiVector F) : Spinor F := exp_Biv (mul TDub TBiv (nlit 1 (-1)) b).
(** README.md:242-243, exp(.5*angRoll) * exp(.5*angElev) * exp(.5*angAzim) *)
Definition attitude_of {L : Libm F} (roll elev azim : BiVector F) : Spinor F :=
  mul TSpin TSpin (mul TSpin TSpin (half_angle_rotor roll) (half_angle_rotor elev)) (half_angle_rotor azim).
(** README.md:244-245, 2.*logG2(spin).theBiv *)
Definition angle3D {L : Libm F} (s : Spinor F) : BiVector F := mul TDub TBiv (nlit 1 1) (spinBiv (logG2 s c_e23)).
End Client.

(** Distance of two points. *)
Definition distance (x y : Vector R) : R := sqrt ((vec_0 x - vec_0 y) * (vec_0 x - vec_0 y) +
  (vec_1 x - vec_1 y) * (vec_1 x - vec_1 y) + (vec_2 x - vec_2 y) * (vec_2 x - vec_2 y)).

(** Angles of doubles: components zero, or between 2^-400 and 2^30 in absolute value. *)
Definition frame_angle (b : BiVector f64) : Prop :=
  Forall (fun c => is_finite c = true /\ (B2R c = 0 \/ bpow radix2 (-400) <= Rabs (B2R c) <= bpow radix2 30)) (elems TBiv b).
(** What an angle adds to the error of the attitude. *)
Definition frame_error (eps : R) (b : BiVector f64) : R :=
  2 * eps + 8 * unit_roundoff * (7 + cnorm (exactly TBiv b)).
(** A sequence of angles, with the true exponentials of half the angles, the
    product of the computed exponentials. *)
Definition half_exp (x : BiVector f64 * clf) : Prop := is_cexp (cscale (/ 2) (exactly TBiv (fst x))) (snd x).
Definition computed_attitude {L : Libm f64} (a : BiVector f64) (l : list (BiVector f64)) : Spinor f64 :=
  running_product (half_angle_rotor a) (map half_angle_rotor l).
