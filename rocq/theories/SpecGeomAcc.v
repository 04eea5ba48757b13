(** * Specification vocabulary: values of moderate size. *)

Require Import Reals ZArith.
From Flocq Require Import Core.
Require Import Verif.Types Verif.B64 Verif.SpecCl Verif.SpecFunc Verif.SpecRound Verif.SpecAcc.
Local Open Scope R_scope.

(** Finite components, and a magnitude between 2^-200 and 2^200. *)
Definition sized (t : ty) (x : val f64 t) : Prop := all_finite t x /\ bpow radix2 (-200) <= cnorm (exactly t x) <= bpow radix2 200.
