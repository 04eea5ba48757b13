(** * Specification: nearest double. *)

Require Import Reals.
From Flocq Require Import Core BinarySingleNaN.
Require Import Verif.B64.
Local Open Scope R_scope.

(** [c] is strictly nearer to [x] than any double of another value. *)
Definition nearest_double (x : R) (c : f64) : Prop :=
  is_finite c = true /\ forall y : f64, is_finite y = true -> B2R y <> B2R c ->
  Rabs (B2R c - x) < Rabs (B2R y - x).
