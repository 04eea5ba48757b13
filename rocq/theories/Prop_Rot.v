(** * Rotating by a computed exponential on binary64.

    Only statements; proofs are in RotAcc.v. *)

Require Import Reals ZArith List Bool Lra.
From Flocq Require Import Core BinarySingleNaN.
Require Import Verif.Num Verif.Types Verif.Priv Verif.OpsUni Verif.OpsMul Verif.Const Verif.Func Verif.SpecCl
  Verif.SpecFunc Verif.SpecExp Verif.B64 Verif.SpecRound Verif.SpecAcc Verif.ExpAcc Verif.AccThm Verif.RotAcc.
Local Open Scope R_scope.

(** C67: exp(b) * v * reverse(exp(b)) with everything computed, against the
    rotation by the true exponential [E] of [b]; [v] of any type. *)
Theorem C67_rotation : forall (L : Libm f64) eps, trig_within eps L -> eps <= / 16 ->
  forall (b : BiVector f64) E, exp_domain b -> is_cexp (exactly TBiv b) E ->
  forall (e : Z) t (v : val f64 t), (-1076 <= e <= 1013)%Z -> within e t v ->
  let s := exp_Biv b in
  let r := mul _ TSpin (mul TSpin t s v) (reverse TSpin s) in
  let V := exactly t v in
  let delta := 2 * eps + 16 * unit_roundoff * (1 + cnorm (exactly TBiv b)) in
  let bound := (269 * unit_roundoff + 13 / 4 * delta) * cnorm V + 88 * underflow_unit in
  all_finite _ r /\
  cnorm (csub (exactly _ r) (gp (gp E V) (crev E))) <= bound /\
  Rabs (cnorm (exactly _ r) - cnorm V) <= bound.
Proof. exact @exp_rotation. Qed.
Print Assumptions C67_rotation.
Example C67_example :
  trig_within (bpow radix2 (-52)) rounded_lib /\ bpow radix2 (-52) <= / 16 /\
  exp_domain (Biv (f64_lit 3 0) (f64_lit 0 0) (f64_lit (-4) 0)) /\
  within 3 TVec (Vec (f64_lit 3 0) (f64_lit (-4) 0) (f64_lit 8 0)).
Proof.
  split; [exact (proj1 library_within)|]. split; [|split; [exact example_exp_domain|exact example_within]].
  replace (/ 16) with (bpow radix2 (-4)) by reflexivity. apply bpow_le. discriminate.
Qed.
