(** * Specification: chains of comparisons. *)

Require Import Reals ZArith List.
From Flocq Require Import Core BinarySingleNaN.
Require Import Verif.Num Verif.Types Verif.Priv Verif.B64 Verif.SpecCompare.
Import ListNotations.
Local Open Scope R_scope.

(** Every consecutive pair of the values [x :: l] is in the relation. *)
Fixpoint linked {A : Type} (near : A -> A -> Prop) (x : A) (l : list A) : Prop :=
  match l with [] => True | y :: l => near x y /\ linked near y l end.

(** A grade that is zero; one whose squared length is from 2^-900 to 2^1000. *)
Definition vanishing_grade (l : list f64) : Prop := Forall (fun v : f64 => is_finite v = true /\ B2R v = 0) l.
Definition plain_grade (l : list f64) : Prop := bpow radix2 (-900) <= norm2 l <= bpow radix2 1000.

(** What a tolerance allows, with the rounding of the comparison. *)
Definition allowed (tol : f64) : R := (1 + bpow radix2 (-49)) * B2R tol.
