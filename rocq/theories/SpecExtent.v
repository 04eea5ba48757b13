(** * Specification: lengths against components. *)

Require Import Reals ZArith List.
From Flocq Require Import Core BinarySingleNaN.
Require Import Verif.Num Verif.Types Verif.Priv Verif.B64.
Import ListNotations.
Local Open Scope R_scope.

(** Component by component not larger in size. *)
Definition dominated (t : ty) (x y : val f64 t) : Prop :=
  Forall2 (fun v w : f64 => Rabs (B2R v) <= Rabs (B2R w)) (elems t x) (elems t y).

(** Some component is at least [2^e] in size. *)
Definition reaches (e : Z) (t : ty) (x : val f64 t) : Prop :=
  Exists (fun v : f64 => bpow radix2 e <= Rabs (B2R v)) (elems t x).

(** Every component is a number from -1 to 1. *)
Definition in_box (t : ty) (x : val f64 t) : Prop :=
  Forall (fun v : f64 => is_finite v = true /\ -1 <= B2R v <= 1) (elems t x).

(** The component at place [i] is [v], the others are zeros. *)
Definition on_axis (t : ty) (x : val f64 t) (i : nat) (v : f64) : Prop :=
  nth_error (elems t x) i = Some v /\
  forall j w, j <> i -> nth_error (elems t x) j = Some w -> is_finite w = true /\ B2R w = 0.
