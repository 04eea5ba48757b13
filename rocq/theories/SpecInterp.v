(** * Specification vocabulary: interpolation between attitudes. *)

Require Import Reals ZArith.
From Flocq Require Import Core BinarySingleNaN.
Require Import Verif.Num Verif.Types Verif.OpsUni Verif.OpsMul Verif.Func Verif.SpecCl Verif.SpecRound Verif.SpecAcc Verif.B64.
Local Open Scope R_scope.

(** The client expressions [b * reverse(a)], which turns the attitude [a] into
    [b], and [exp(t * logG2(b * reverse(a), plane)) * a], a part [t] of the way:
    g3opsUni.hpp, g3opsMul_Spinor.hpp, g3func.hpp:558-567 and 711-768. *)
Definition step {F : Type} `{Ring0 F} (a b : Spinor F) : Spinor F := mul TSpin TSpin b (reverse TSpin a).
Section Client.
Context {F : Type} `{Arith F} `{Libm F}.
Definition interpolated (a b : Spinor F) (plane : BiVector F) (t : F) : Spinor F :=
  mul TSpin TSpin (exp_Spin (mul_Dub_Spin t (logG2 (step a b) plane))) a.
End Client.

(** The inner product of spinors as vectors of four components. *)
Definition inner (a b : Spinor R) : R :=
  sca_0 (spinSca a) * sca_0 (spinSca b) + biv_0 (spinBiv a) * biv_0 (spinBiv b) +
  biv_1 (spinBiv a) * biv_1 (spinBiv b) + biv_2 (spinBiv a) * biv_2 (spinBiv b).

(** Computed attitudes: finite, squared norm at most [d] from one. *)
Definition attitude (d : R) (a : Spinor f64) : Prop :=
  all_finite TSpin a /\ Rabs (cnorm2 (exactly TSpin a) - 1) <= d.
