(** * Specification: small integers, sums of absolute values, error bounds. *)

Require Import Reals ZArith List.
From Flocq Require Import Core BinarySingleNaN.
Require Import Verif.Num Verif.Types Verif.Priv Verif.B64 Verif.SpecCl.
Import ListNotations.
Local Open Scope R_scope.

(** Every component is an integer of absolute value at most 2^24. *)
Definition small_integers (t : ty) (x : val f64 t) : Prop :=
  Forall (fun v => is_finite v = true /\ exists n : Z, (Z.abs n <= 2 ^ 24)%Z /\ B2R v = IZR n) (elems t x).

Definition all_finite (t : ty) (x : val f64 t) : Prop :=
  Forall (fun v => is_finite v = true) (elems t x).

(** The exact multivector a value of doubles stands for. *)
Definition exactly (t : ty) (x : val f64 t) : clf := den t (mapv (fun v : f64 => B2R v) t x).

(** Sum of the absolute values of the terms of the geometric product. *)
Definition gp_abs (a b : clf) : clf := fun k =>
  rsum (map (fun i => Rabs (a i) * Rabs (b (bxor i k))) all_blades).

(** Half the relative spacing of doubles, half the smallest double. *)
Definition unit_roundoff : R := bpow radix2 (-53).
Definition underflow_unit : R := bpow radix2 (-1075).

(** Nearest binary64 number, ties to even, unbounded above. *)
Definition nearest64 (x : R) : R := round radix2 (FLT_exp (-1074) 53) ZnearestE x.

(** Components of a sum or difference, none where the overload is missing. *)
Definition components (o : option ty) : oval f64 o -> list f64 :=
  match o with Some t => fun x => elems t x | None => fun _ => [] end.

(** Same double, except that zeros of either sign are not told apart. *)
Definition same_but_zero_sign (x y : f64) : Prop :=
  x = y \/ exists s s', x = B754_zero s /\ y = B754_zero s'.

(** The type pairs whose difference has the wrong sign (see C03). *)
Definition wrong_sign_pair (a b : ty) : Prop :=
  (a, b) = (TBiv, TSca) \/ (a, b) = (TBiv, TVec) \/ (a, b) = (TTri, TSca) \/
  (a, b) = (TTri, TVec) \/ (a, b) = (TSpin, TSca) \/ (a, b) = (TSpin, TBiv).
