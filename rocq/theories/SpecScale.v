(** * Specification: scaling by powers of two. *)

Require Import Reals ZArith List.
From Flocq Require Import Core BinarySingleNaN.
Require Import Verif.Num Verif.Types Verif.Priv Verif.B64.
Import ListNotations.
Local Open Scope R_scope.

(** [w] is [v] times 2^e, without rounding and with the sign of a zero kept. *)
Definition scaled (e : Z) (v w : f64) : Prop :=
  is_finite v = true /\ is_finite w = true /\ B2R w = bpow radix2 e * B2R v /\ Bsign w = Bsign v.
Definition scaledv (e : Z) (t : ty) (x x' : val f64 t) : Prop := Forall2 (scaled e) (elems t x) (elems t x').
(** The product is zero or not below the normal numbers, also when scaled. *)
Definition no_underflow (e : Z) (v w : f64) : Prop :=
  B2R v * B2R w = 0 \/
  bpow radix2 (-1022) <= Rabs (B2R v * B2R w) /\ bpow radix2 (-1022) <= bpow radix2 e * Rabs (B2R v * B2R w).
(** Zero, or of absolute value from 2^-n to 2^n. *)
Definition between (n : Z) (v : f64) : Prop :=
  is_finite v = true /\ (B2R v = 0 \/ bpow radix2 (- n) <= Rabs (B2R v) <= bpow radix2 n).
Definition betweenv (n : Z) (t : ty) (x : val f64 t) : Prop := Forall (between n) (elems t x).
(** Not all components of the value are zero. *)
Definition nonzero (t : ty) (x : val f64 t) : Prop := Exists (fun v : f64 => B2R v <> 0) (elems t x).
