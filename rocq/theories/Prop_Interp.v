(** * C100: interpolation between attitudes.

    Only statements; proofs are in InterpFacts.v and InterpAcc.v. *)

Require Import Reals ZArith List Bool Lra.
From Flocq Require Import Core BinarySingleNaN.
Require Import Verif.Num Verif.Types Verif.OpsUni Verif.OpsAdd Verif.OpsMul Verif.Const Verif.Func Verif.SpecCl Verif.RealInst
  Verif.SpecFunc Verif.SpecGeom Verif.SpecExp Verif.B64 Verif.SpecRound Verif.SpecAcc Verif.SpecPow Verif.SpecInterp Verif.InterpFacts Verif.InterpAcc.
Local Open Scope R_scope.

(** C100 *)
(** In exact arithmetic the interpolated spinors run along the great circle from
    [a] to [b] with constant speed; the way back is the same. *)
Theorem C100_exact : forall (a b : Spinor R) (plane : BiVector R), inner a a = 1 -> inner b b = 1 ->
  Rabs (inner a b) <= 1 - deps -> tiny < cnorm (den TBiv plane) ->
  exists (th : R) (Q : R -> Spinor R), 0 < th < PI /\ inner a b = cos th /\
    (forall t, t = 0 \/ tiny < Rabs t * th -> interpolated (exact TSpin a) (exact TSpin b) (exact TBiv plane) (Some t : xreal) = exact TSpin (Q t)) /\
    (forall t, 1 - t = 0 \/ tiny < Rabs (1 - t) * th ->
      interpolated (exact TSpin b) (exact TSpin a) (exact TBiv plane) (Some (1 - t) : xreal) = exact TSpin (Q t)) /\
    Q 0 = a /\ Q 1 = b /\ (forall t, inner (Q t) (Q t) = 1) /\ (forall s t, inner (Q s) (Q t) = cos ((t - s) * th)) /\
    (forall t, Q t = add_Spin_Spin (scale TSpin (sin ((1 - t) * th) / sin th) a) (scale TSpin (sin (t * th) / sin th) b)).
Proof. exact interpolation_curve. Qed.
Print Assumptions C100_exact.
(** It is not always the shorter way round: where the inner product is negative,
    the other spinor of the same attitude is nearer. *)
Theorem C100_longer_way : forall (a b : Spinor R), inner a a = 1 -> inner b b = 1 -> -1 < inner a b < 0 ->
  (forall v, rotate (neg TSpin b) v = rotate b v) /\ inner (neg TSpin b) (neg TSpin b) = 1 /\
  acos (inner a (neg TSpin b)) = PI - acos (inner a b) /\ acos (inner a (neg TSpin b)) < acos (inner a b).
Proof. exact other_way. Qed.
Print Assumptions C100_longer_way.
(** On doubles: there is one exact generator [X] for all [t]; the curve
    [exp(t X) a] begins in [a], ends near [b], and the interpolated spinors are
    within some units in the last place of it.  They are attitudes again. *)
Theorem C100_doubles : forall (L : Libm f64) eps,
  trig_within eps L -> exp_within eps L -> log_within eps L -> atan2_within eps L -> eps <= bpow radix2 (-40) ->
  forall d (a b : Spinor f64) (plane : BiVector f64), d <= / 16 -> attitude d a -> attitude d b -> root_domain (step a b) plane ->
  let A := exactly TSpin a in let B := exactly TSpin b in let r := step a b in
  exists X : Spinor R, Rabs (sca_0 (spinSca X)) <= 2 * d + 4 * eps + 60 * unit_roundoff /\
    cnorm (den TBiv (spinBiv X)) <= PI + eps + 64 * unit_roundoff /\
    (forall E, is_cexp (den TSpin X) E -> cnorm (csub (gp E A) B) <= 2 * d + 5 * eps + bpow radix2 (-21) /\
      (bpow radix2 (-23) * cnorm (exactly TSpin r) <= cnorm (exactly TBiv (spinBiv r)) ->
        cnorm (csub (gp E A) B) <= 2 * d + 5 * eps + 200 * unit_roundoff)) /\
    (forall t E, exponent t -> is_cexp (cscale (B2R t) (den TSpin X)) E -> all_finite TSpin (interpolated a b plane t) /\
      cnorm (csub (exactly TSpin (interpolated a b plane t)) (gp E A)) <= 7 * eps + 150 * unit_roundoff /\
      attitude (7 * d + 30 * eps + 600 * unit_roundoff) (interpolated a b plane t)).
Proof. exact @interpolation_accurate. Qed.
Print Assumptions C100_doubles.

(** From no turn to the exchange of the axes in a cycle, (1 + e23 + e31 + e12) / 2. *)
Example C100_example : let a := one TSpin : Spinor R in let b := mkSpin (Sca (1 / 2)) (Biv (1 / 2) (1 / 2) (1 / 2)) in
  inner a a = 1 /\ inner b b = 1 /\ Rabs (inner a b) <= 1 - deps /\ inner a (neg TSpin b) < 0 /\ tiny < cnorm (den TBiv (c_e23 : BiVector R)).
Proof. exact example_interp. Qed.
Example C100_example_doubles : let h := f64_lit 1 (-1) in let b := mkSpin (Sca h) (Biv h h h) in
  let plane := Biv (f64_lit 0 0) (f64_lit 1 0) (f64_lit 0 0) in
  attitude 0 (one TSpin) /\ attitude 0 b /\ root_domain (step (one TSpin) b) plane /\
  bpow radix2 (-23) * cnorm (exactly TSpin (step (one TSpin) b)) <= cnorm (exactly TBiv (spinBiv (step (one TSpin) b))).
Proof. exact example_attitudes. Qed.
