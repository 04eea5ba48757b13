(** * Turns by a given angle about a given plane: specification. *)

Require Import Reals List.
From Flocq Require Import Core BinarySingleNaN.
Require Import Verif.Num Verif.Types Verif.SpecCl Verif.SpecFunc Verif.B64 Verif.SpecRound Verif.SpecAcc.
Local Open Scope R_scope.

(** A plane to turn about: norm between 2^-480 and 2^480, first component zero
    or not below 2^-900 of the norm. *)
Definition turn_plane (b : BiVector f64) : Prop :=
  all_finite TBiv b /\ bpow radix2 (-480) <= cnorm (exactly TBiv b) <= bpow radix2 480 /\ first_clear b (cnorm (exactly TBiv b)).

(** The spinor that turns by [t] about the plane of [b]: cos t + sin t b/|b|. *)
Definition turn (t : R) (b : BiVector f64) : clf :=
  cadd (cscale (cos t) cone) (cscale (sin t / cnorm (exactly TBiv b)) (exactly TBiv b)).

(** The plane 2 e23 + e31 + e12, and the one of the manual's example, e23 + e12. *)
Definition plane211 : BiVector f64 := Biv (f64_lit 2 0) (f64_lit 1 0) (f64_lit 1 0).
Definition plane101 : BiVector f64 := Biv (f64_lit 1 0) (f64_lit 0 0) (f64_lit 1 0).
