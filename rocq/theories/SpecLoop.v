(** * Specification: a loop that multiplies and normalises. *)

Require Import Reals ZArith List.
From Flocq Require Import Core BinarySingleNaN.
Require Import Verif.Num Verif.Types Verif.Priv Verif.OpsMul Verif.Func Verif.B64 Verif.SpecCl Verif.SpecFunc Verif.SpecRound Verif.SpecExp Verif.SpecAcc.
Import ListNotations.
Local Open Scope R_scope.

(** What a client computes to compose spinors with normalisation at each step. *)
Definition renormalised (s : Spinor f64) (l : list (Spinor f64)) : Spinor f64 :=
  fold_left (fun p q => direction TSpin (mul TSpin TSpin p q)) l s.

(** Finite, of length from 2^-200 to 2^200. *)
Definition medium (s : Spinor f64) : Prop :=
  all_finite TSpin s /\ bpow radix2 (-200) <= cnorm (exactly TSpin s) <= bpow radix2 200.

(** The multivector of length 1 of the same direction. *)
Definition unit_of (a : clf) : clf := cscale (/ cnorm a) a.

(** Sum over a list. *)
Definition total {A : Type} (f : A -> R) (l : list A) : R := fold_right (fun a r => f a + r) 0 l.

(** An angle in the domain of [exp], of length up to 2^40, with its true
    exponential; what one step with it may add to the error. *)
Definition angle_ok (x : BiVector f64 * clf) : Prop :=
  exp_domain (fst x) /\ cnorm (exactly TBiv (fst x)) <= bpow radix2 40 /\ is_cexp (exactly TBiv (fst x)) (snd x).
Definition angle_error (eps : R) (b : BiVector f64) : R :=
  84 * unit_roundoff + 2 * (2 * eps + 16 * unit_roundoff * (1 + cnorm (exactly TBiv b))).
