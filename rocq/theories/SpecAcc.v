(** * Specification: bounds on doubles. *)

Require Import Reals ZArith List.
From Flocq Require Import Core BinarySingleNaN.
Require Import Verif.Num Verif.Types Verif.Priv Verif.OpsMul Verif.B64 Verif.SpecCl Verif.SpecFunc Verif.SpecRound Verif.SpecValid.
Local Open Scope R_scope.

(** Every component is a finite double of absolute value at most [2^e]. *)
Definition within (e : Z) (t : ty) (x : val f64 t) : Prop :=
  Forall (fun v => is_finite v = true /\ Rabs (B2R v) <= bpow radix2 e) (elems t x).

(** Product of a list of spinors, from the left, as the code would compute it,
    and the exact product of the multivectors they stand for. *)
Definition running_product (s : Spinor f64) (l : list (Spinor f64)) : Spinor f64 :=
  fold_left (fun p q => mul TSpin TSpin p q) l s.
Definition exact_product (s : Spinor f64) (l : list (Spinor f64)) : clf :=
  fold_left gp (map (exactly TSpin) l) (exactly TSpin s).

(** Product of the norms. *)
Definition norm_product (s : Spinor f64) (l : list (Spinor f64)) : R :=
  fold_left Rmult (map (fun q => cnorm (exactly TSpin q)) l) (cnorm (exactly TSpin s)).

(** [inv] inverts, up to rounding, every value whose norm is between 2^-480
    and 2^480: no infinities, each component to 14 units of roundoff of the
    exact inverse (reverse over squared norm), products with the operand on
    either side within 43 units of roundoff of 1. *)
Definition inverts (t : ty) (inv : val f64 t -> val f64 t) : Prop := forall x : val f64 t, all_finite t x ->
  bpow radix2 (-480) <= cnorm (exactly t x) <= bpow radix2 480 ->
  let X := exactly t x in
  all_finite t (inv x) /\
  (forall k, Rabs (exactly t (inv x) k - crev X k / cnorm2 X) <= 14 * unit_roundoff * (Rabs (X k) / cnorm2 X) + underflow_unit) /\
  cnorm (csub (exactly (mulTy t t) (mul t t x (inv x))) cone) <= 43 * unit_roundoff /\
  cnorm (csub (exactly (mulTy t t) (mul t t (inv x) x)) cone) <= 43 * unit_roundoff.

(** What [inv] does outside: where all components are below 2^-538 the squares
    vanish and no component of the result is finite; where one is at least
    2^512 they overflow and the result is zero. *)
Definition inverse_breaks (t : ty) (inv : val f64 t -> val f64 t) : Prop := forall x : val f64 t, all_finite t x ->
  (Forall (fun v => Rabs (B2R v) <= bpow radix2 (-538)) (elems t x) ->
     Forall (fun v => is_finite v = false) (elems t (inv x))) /\
  (Exists (fun v => bpow radix2 512 <= Rabs (B2R v)) (elems t x) ->
     all_finite t (inv x) /\ ceq (exactly t (inv x)) czero).

(** A math library whose sine and cosine are within [eps] of the true value
    at every finite double, and whose exponential is within a relative [eps]
    between -600 and 600. *)
Record trig_within (eps : R) (L : Libm f64) : Prop := {
  cos_within : forall x : f64, is_finite x = true ->
    is_finite (mcos x) = true /\ Rabs (B2R (mcos x) - cos (B2R x)) <= eps;
  sin_within : forall x : f64, is_finite x = true ->
    is_finite (msin x) = true /\ Rabs (B2R (msin x) - sin (B2R x)) <= eps
}.
Definition exp_within (eps : R) (L : Libm f64) : Prop := forall x : f64, is_finite x = true ->
  Rabs (B2R x) <= 600 -> is_finite (mexp x) = true /\ Rabs (B2R (mexp x) - exp (B2R x)) <= eps * exp (B2R x).

(** Bivectors whose exponential the code computes: norm between 2^-480 and
    2^480, first component zero or normal and not below 2^-1000 of the norm. *)
Definition exp_domain (b : BiVector f64) : Prop :=
  all_finite TBiv b /\ bpow radix2 (-480) <= cnorm (exactly TBiv b) <= bpow radix2 480 /\ 
  (B2R (biv_0 b) = 0 \/
   bpow radix2 (-1022) <= Rabs (B2R (biv_0 b)) /\ bpow radix2 (-1000) * cnorm (exactly TBiv b) <= Rabs (B2R (biv_0 b))).

(** A math library whose logarithm is within [eps * (1 + |ln x|)] of the true
    value, and whose [atan2] of a point above the axis is within [eps] of the
    point's polar angle. *)
Definition log_within (eps : R) (L : Libm f64) : Prop := forall x : f64, is_finite x = true -> 0 < B2R x ->
  is_finite (mlog x) = true /\ Rabs (B2R (mlog x) - ln (B2R x)) <= eps * (1 + Rabs (ln (B2R x))).
Definition atan2_within (eps : R) (L : Libm f64) : Prop := forall y x : f64, is_finite y = true -> is_finite x = true -> 0 < B2R y ->
  is_finite (matan2 y x) = true /\
  exists angle, 0 <= angle <= PI /\ Rabs (B2R (matan2 y x) - angle) <= eps /\
    let r := sqrt (B2R x * B2R x + B2R y * B2R y) in B2R x = r * cos angle /\ B2R y = r * sin angle.

(** Spinors whose logarithm the code computes: norm between 2^-51 and 2^480,
    scalar and first bivector component zero or normal. *)
Definition log_domain (s : Spinor f64) : Prop :=
  all_finite TSpin s /\ bpow radix2 (-51) <= cnorm (exactly TSpin s) <= bpow radix2 480 /\
  valid_number (sca_0 (spinSca s)) /\ valid_number (biv_0 (spinBiv s)).

(** Spinors, and planes for the ambiguous case, whose square root the code
    computes: as above, with plane of norm between 2^-480 and 2^480, first
    bivector components zero or not below 2^-900 of the norm. *)
Definition first_clear (b : BiVector f64) (n : R) : Prop :=
  B2R (biv_0 b) = 0 \/ bpow radix2 (-900) * n <= Rabs (B2R (biv_0 b)).
Definition root_domain (s : Spinor f64) (plane : BiVector f64) : Prop :=
  log_domain s /\ first_clear (spinBiv s) (cnorm (exactly TSpin s)) /\
  all_finite TBiv plane /\ bpow radix2 (-480) <= cnorm (exactly TBiv plane) <= bpow radix2 480 /\
  first_clear plane (cnorm (exactly TBiv plane)).
