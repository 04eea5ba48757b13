(** * Accuracy of [exp] on binary64 numbers.

    Only statements; proofs are in ExpAcc.v.  The math library is arbitrary
    up to the stated error of its sine, cosine and exponential. *)

Require Import Reals ZArith List Bool Lra.
From Flocq Require Import Core BinarySingleNaN.
Require Import Verif.Num Verif.Types Verif.Priv Verif.OpsMul Verif.Const Verif.Func Verif.SpecCl
  Verif.SpecFunc Verif.SpecExp Verif.B64 Verif.SpecValid Verif.SpecRound Verif.SpecAcc Verif.ExpAcc.
Local Open Scope R_scope.

(** C58 *)
Theorem C58_exp_bivector : forall (L : Libm f64) eps, trig_within eps L -> eps <= / 16 ->
  forall (b : BiVector f64) E, exp_domain b -> is_cexp (exactly TBiv b) E ->
  all_finite TSpin (exp_Biv b) /\ cnorm (exactly TSpin (exp_Biv b)) <= 9 / 4 /\
  cnorm (csub (exactly TSpin (exp_Biv b)) E) <= 2 * eps + 16 * unit_roundoff * (1 + cnorm (exactly TBiv b)).
Proof. exact @exp_Biv_accurate. Qed.
Print Assumptions C58_exp_bivector.
Theorem C58_exp_spinor : forall (L : Libm f64) eps, trig_within eps L -> exp_within eps L -> eps <= / 16 ->
  forall (s : Spinor f64) E, exp_domain (spinBiv s) ->
  is_finite (sca_0 (spinSca s)) = true -> Rabs (B2R (sca_0 (spinSca s))) <= 600 ->
  is_cexp (exactly TSpin s) E ->
  all_finite TSpin (exp_Spin s) /\
  cnorm (csub (exactly TSpin (exp_Spin s)) E) <=
    exp (B2R (sca_0 (spinSca s))) * (4 * eps + 20 * unit_roundoff * (1 + cnorm (exactly TBiv (spinBiv s)))) +
    3 * underflow_unit.
Proof. exact @exp_Spin_accurate. Qed.
Print Assumptions C58_exp_spinor.
(** Without the condition on the first component the bound is false, whatever
    the library: a valid bivector of norm about 2 whose exponential comes out
    as 1, and one that is far from zero whose exponential comes out null. *)
Theorem C58_first_component_refuted : forall L : Libm f64, exists b : BiVector f64,
  all_valid TBiv b /\ exp_Biv b = one TSpin /\ 2 <= cnorm (exactly TBiv b) <= 3 /\
  forall E, is_cexp (exactly TBiv b) E -> 1 <= cnorm (csub (exactly TSpin (exp_Biv b)) E).
Proof. exact exp_Biv_wrong. Qed.
Print Assumptions C58_first_component_refuted.
Theorem C58_subnormal_refuted : forall L : Libm f64,
  exp_Biv (Biv (f64_lit 1 (-1060)) (f64_lit 2 0) (f64_lit 0 0)) = null TSpin.
Proof. exact exp_Biv_subnormal. Qed.
Print Assumptions C58_subnormal_refuted.
(** Such libraries exist: correct rounding of the true values. *)
Theorem C58_library : trig_within (bpow radix2 (-52)) rounded_lib /\ exp_within (bpow radix2 (-52)) rounded_lib.
Proof. exact library_within. Qed.
Print Assumptions C58_library.
Example C58_example : exp_domain (Biv (f64_lit 3 0) (f64_lit 0 0) (f64_lit (-4) 0)).
Proof. exact example_exp_domain. Qed.
