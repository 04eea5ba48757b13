(** * Specification: valid numbers and objects, independent of the model's tests. *)

Require Import Reals ZArith List Bool.
From Flocq Require Import Core BinarySingleNaN.
Require Import Verif.Num Verif.Types Verif.Priv Verif.B64.
Import ListNotations.
Local Open Scope R_scope.

(** "Zero or normal": a finite number that is zero or of magnitude at least
    2^-1022, the smallest normal number. *)
Definition valid_number (x : f64) : Prop :=
  is_finite x = true /\ (B2R x = 0 \/ bpow radix2 (-1022) <= Rabs (B2R x)).

Definition all_valid (t : ty) (x : val f64 t) : Prop := Forall valid_number (elems t x).

(** Some component is NaN; is not finite. *)
Definition has_nan (t : ty) (x : val f64 t) : Prop :=
  Exists (fun v => is_nan v = true) (elems t x).
Definition has_nonfinite (t : ty) (x : val f64 t) : Prop :=
  Exists (fun v => is_finite v = false) (elems t x).
Definition all_nan (t : ty) (x : val f64 t) : Prop :=
  Forall (fun v => is_nan v = true) (elems t x).

(** Places of the first component of each grade. *)
Definition first_of_grade (t : ty) : list nat :=
  match t with
  | TDub | TSca | TVec | TBiv | TTri => [0%nat]
  | TSpin => [0; 1]%nat
  | TImsp => [0; 3]%nat
  | TCplx => [0; 1]%nat
  | TDplx => [0; 3]%nat
  | TMvec => [0; 1; 4; 7]%nat
  end.

(** Assumptions on the math library, used only where stated: a NaN argument
    spoils the result. *)
Definition cmul_keeps_nan (L : Libm f64) : Prop :=
  forall z w : f64 * f64, is_nan (fst z) = true \/ is_nan (snd z) = true ->
    is_finite (fst (mcmul z w)) = false \/ is_finite (snd (mcmul z w)) = false.
Definition exp_keeps_nan (L : Libm f64) : Prop :=
  forall x : f64, is_nan x = true -> is_nan (mexp x) = true.
Definition cos_keeps_nan (L : Libm f64) : Prop :=
  forall x : f64, is_nan x = true -> is_nan (mcos x) = true.
