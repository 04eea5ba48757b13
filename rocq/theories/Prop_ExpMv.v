(** * exp(MultiVector) on binary64.

    Only statements; proofs are in ExpMvThm.v. *)

Require Import Reals ZArith List Bool.
From Flocq Require Import Core BinarySingleNaN.
Require Import Verif.Num Verif.Types Verif.Priv Verif.Func Verif.SpecCl Verif.SpecFunc Verif.SpecExp Verif.SpecAnti
  Verif.B64 Verif.SpecValid Verif.SpecRound Verif.SpecAcc Verif.ExpAcc Verif.ExpMvFacts Verif.ExpMvThm.
Import ListNotations.
Local Open Scope R_scope.

(** C79: with a math library within [eps], the computed value is the
    exponential in the algebra whose generators square to -1, within an error
    proportional to the size of that exponential. *)
Theorem C79_other_algebra : forall (L : Libm f64) eps, trig_within eps L -> exp_within eps L -> eps <= / 16 ->
  forall (x : MultiVector f64) E, all_valid TMvec x ->
  Rabs (B2R (sca_0 (mvSca x))) <= 300 -> Rabs (B2R (tri_0 (mvTri x))) <= 300 -> cnorm (exactly TMvec x) <= bpow radix2 40 ->
  is_aexp (exactly TMvec x) E ->
  all_finite TMvec (exp_Mvec x) /\
  cnorm (csub (exactly TMvec (exp_Mvec x)) E) <=
    exp (B2R (sca_0 (mvSca x)) + Rabs (B2R (tri_0 (mvTri x)))) * (12 * eps + 165 * unit_roundoff * (1 + cnorm (exactly TMvec x))).
Proof. exact @exp_Mvec_accurate. Qed.
Print Assumptions C79_other_algebra.
(** For scalar plus bivector this is the exponential. *)
Theorem C79_spinors : forall (L : Libm f64) eps, trig_within eps L -> exp_within eps L -> eps <= / 16 ->
  forall (s : Spinor f64) E, all_valid TSpin s ->
  Rabs (B2R (sca_0 (spinSca s))) <= 300 -> cnorm (exactly TSpin s) <= bpow radix2 40 -> is_cexp (exactly TSpin s) E ->
  all_finite TMvec (exp_Mvec (mv_of_Spin s)) /\
  cnorm (csub (exactly TMvec (exp_Mvec (mv_of_Spin s))) E) <=
    exp (B2R (sca_0 (spinSca s))) * (12 * eps + 165 * unit_roundoff * (1 + cnorm (exactly TSpin s))).
Proof. exact @exp_Mvec_spinor64. Qed.
Print Assumptions C79_spinors.
Theorem C79_overloads : forall (L : Libm f64) eps, trig_within eps L -> exp_within eps L -> eps <= / 16 ->
  forall s : Spinor f64, all_valid TSpin s -> exp_domain (spinBiv s) ->
  Rabs (B2R (sca_0 (spinSca s))) <= 300 -> cnorm (exactly TSpin s) <= bpow radix2 40 ->
  cnorm (csub (exactly TMvec (exp_Mvec (mv_of_Spin s))) (exactly TSpin (exp_Spin s))) <=
    exp (B2R (sca_0 (spinSca s))) * (16 * eps + 190 * unit_roundoff * (1 + cnorm (exactly TSpin s))).
Proof. exact @overloads_agree. Qed.
Print Assumptions C79_overloads.

(** For every trivector and every vector of length from 1 up the computed
    value is far from the exponential, whatever the library. *)
Theorem C79_trivectors_refuted : forall (L : Libm f64) eps, trig_within eps L -> exp_within eps L -> eps <= / 1024 ->
  forall (t : f64) E, is_finite t = true -> 1 <= Rabs (B2R t) <= 300 -> is_cexp (exactly TTri (Tri t)) E ->
  exp (Rabs (B2R t)) / 20 <= cnorm (csub (exactly TMvec (exp_Mvec (mv_of_Tri (Tri t)))) E).
Proof. exact @tri64_far. Qed.
Print Assumptions C79_trivectors_refuted.
Theorem C79_vectors_refuted : forall (L : Libm f64) eps, trig_within eps L -> exp_within eps L -> eps <= / 1024 ->
  forall (v : Vector f64) E, all_valid TVec v -> 1 <= cnorm (exactly TVec v) <= bpow radix2 40 -> is_cexp (exactly TVec v) E ->
  / 5 <= cnorm (csub (exactly TMvec (exp_Mvec (mv_of_Vec v))) E).
Proof. exact @vec64_far. Qed.
Print Assumptions C79_vectors_refuted.

Example C79_example :
  trig_within (bpow radix2 (-52)) rounded_lib /\ exp_within (bpow radix2 (-52)) rounded_lib /\ bpow radix2 (-52) <= / 1024 /\
  all_valid TMvec mv_case /\ Rabs (B2R (sca_0 (mvSca mv_case))) <= 300 /\ Rabs (B2R (tri_0 (mvTri mv_case))) <= 300 /\
  cnorm (exactly TMvec mv_case) <= bpow radix2 40 /\ (exists E, is_aexp (exactly TMvec mv_case) E) /\
  all_valid TSpin spin_case /\ exp_domain (spinBiv spin_case) /\ Rabs (B2R (sca_0 (spinSca spin_case))) <= 300 /\
  cnorm (exactly TSpin spin_case) <= bpow radix2 40 /\ (exists E, is_cexp (exactly TSpin spin_case) E).
Proof. exact mv_case_ok. Qed.
