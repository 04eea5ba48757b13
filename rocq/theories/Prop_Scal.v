(** * C87: scalars as spinors. *)

Require Import Reals ZArith List.
From Flocq Require Import Core BinarySingleNaN.
Require Import Verif.Num Verif.Types Verif.OpsUni Verif.OpsMul Verif.Const Verif.Func Verif.SpecCl Verif.SpecFunc Verif.B64
  Verif.SpecRound Verif.SpecValid Verif.SpecExtent Verif.SpecScal Verif.ScalFacts.
Local Open Scope R_scope.

(** C87: logarithm and square root of a spinor whose bivector part is zero, to
    the bit and for every math library.  Above epsilon the logarithm of the
    scalar; the half turn about the given plane for negative ones. *)
Theorem C87_log : forall (L : Libm f64) (s : Spinor f64) (x : f64) (plane : BiVector f64),
  on_axis TSpin s 0 x -> is_finite x = true ->
  (bpow radix2 (-52) < B2R x <= bpow radix2 511 -> logG2 s plane = mkSpin (Sca (mlog x)) zero_Biv) /\
  (bpow radix2 (-52) < - B2R x <= bpow radix2 511 -> axis_plane plane ->
     logG2 s plane = mkSpin (Sca (mlog (Bopp x))) (scale TBiv c_turnHalf plane)) /\
  (Rabs (B2R x) <= bpow radix2 (-52) -> logG2 s plane = null_Spin).
Proof. exact log_scalar. Qed.
Print Assumptions C87_log.
(** From 4 epsilon up, the root is exp(log(x)/2), turned by a quarter for
    negative scalars. *)
Theorem C87_sqrt : forall (L : Libm f64) (s : Spinor f64) (x : f64) (plane : BiVector f64),
  on_axis TSpin s 0 x -> is_finite x = true ->
  let root y := mexp (Bmult mode_NE (f64_lit 1 (-1)) (mlog y)) in
  (bpow radix2 (-50) <= B2R x <= bpow radix2 511 -> is_finite (root x) = true -> Bsign (root x) = false ->
     sqrtG2 s plane = mkSpin (Sca (root x)) zero_Biv) /\
  (bpow radix2 (-50) <= - B2R x <= bpow radix2 511 -> axis_plane plane ->
     sqrtG2 s plane = mkSpin (Sca (Bmult mode_NE (root (Bopp x)) (mcos c_piHalf)))
       (scale TBiv (root (Bopp x)) (scale TBiv (msin c_piHalf) plane))).
Proof. exact sqrt_scalar. Qed.
Print Assumptions C87_sqrt.
Theorem C87_units : forall (L : Libm f64) (plane : BiVector f64), mlog (none_ : f64) = nzero -> mexp (nzero : f64) = none_ ->
  sqrtG2 (one TSpin) plane = one TSpin /\
  (axis_plane plane -> is_finite (mcos (c_piHalf : f64)) = true -> msin (c_piHalf : f64) = none_ ->
     sqrtG2 (neg TSpin (one TSpin)) plane = mkSpin (Sca (mcos c_piHalf)) plane).
Proof. exact sqrt_units. Qed.
Print Assumptions C87_units.
(** Below 4 epsilon the root is zero, although the spinor is not. *)
Theorem C87_small_refuted : forall (L : Libm f64) (s : Spinor f64) (x : f64) plane,
  on_axis TSpin s 0 x -> valid_number x -> 0 < Rabs (B2R x) < bpow radix2 (-50) ->
  ceq (exactly TSpin (sqrtG2 s plane)) czero /\ ~ ceq (exactly TSpin s) czero.
Proof. exact sqrt_lost. Qed.
Print Assumptions C87_small_refuted.
Example C87_example : on_axis TSpin scal_case 0 (f64_lit (-49) 0) /\ bpow radix2 (-50) <= - B2R (f64_lit (-49) 0) <= bpow radix2 511.
Proof. exact scal_case_ok. Qed.
Example C87_example_small : on_axis TSpin scal_small 0 (f64_lit 1 (-51)) /\ valid_number (f64_lit 1 (-51)) /\ 0 < Rabs (B2R (f64_lit 1 (-51))) < bpow radix2 (-50).
Proof. exact scal_small_ok. Qed.
