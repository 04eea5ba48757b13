(** * Composing rotations with normalisation at each step.

    Only statements; proofs are in LoopFacts.v. *)

Require Import Reals ZArith List Bool Lra.
From Flocq Require Import Core BinarySingleNaN.
Require Import Verif.Num Verif.Types Verif.Priv Verif.OpsUni Verif.OpsMul Verif.Const Verif.Func Verif.SpecCl Verif.SpecFunc Verif.SpecExp
  Verif.B64 Verif.SpecRound Verif.SpecAcc Verif.ExpAcc Verif.SpecLoop Verif.LoopFacts.
Import ListNotations.
Local Open Scope R_scope.

(** C78: after any number of steps the result is finite and a unit spinor
    within 15 units of roundoff. *)
Theorem C78_unit : forall l s, medium s -> Forall medium l ->
  medium (renormalised s l) /\ (l <> [] -> Rabs (cnorm (exactly TSpin (renormalised s l)) - 1) <= 15 * unit_roundoff).
Proof. exact loop_unit. Qed.
Print Assumptions C78_unit.
(** Its distance from the exact product, normalised once at the end, grows
    with the number of steps and not faster. *)
Theorem C78_exact : forall s l, medium s -> Forall medium l -> l <> [] ->
  cnorm (csub (exactly TSpin (renormalised s l)) (unit_of (exact_product s l))) <= (15 + 84 * INR (length l)) * unit_roundoff.
Proof. exact loop_exact. Qed.
Print Assumptions C78_exact.
(** Spinors that stand for rotors: their own errors add up. *)
Theorem C78_rotors : forall s (e : Spinor R) (l : list (Spinor f64 * Spinor R)), medium s -> cnorm (den TSpin e) = 1 ->
  Forall (fun x => medium (fst x) /\ cnorm (den TSpin (snd x)) = 1) l -> l <> [] ->
  cnorm (csub (exactly TSpin (renormalised s (map fst l))) (fold_left gp (map (fun x => den TSpin (snd x)) l) (den TSpin e))) <=
    15 * unit_roundoff + (2 * cnorm (csub (exactly TSpin s) (den TSpin e)) +
      total (fun x => 84 * unit_roundoff + 2 * cnorm (csub (exactly TSpin (fst x)) (den TSpin (snd x)))) l).
Proof. exact loop_rotors. Qed.
Print Assumptions C78_rotors.

(** An attitude from a sequence of angles: exp at each step, product,
    normalisation, everything computed; then a value of any type is rotated. *)
Theorem C78_attitude : forall (L : Libm f64) eps, trig_within eps L -> eps <= / 16 -> forall l, Forall angle_ok l -> l <> [] ->
  let s := renormalised (one TSpin) (map (fun x => exp_Biv (fst x)) l) in
  let E := fold_left gp (map snd l) cone in
  all_finite TSpin s /\ Rabs (cnorm (exactly TSpin s) - 1) <= 15 * unit_roundoff /\ cnorm E = 1 /\
  cnorm (csub (exactly TSpin s) E) <= 15 * unit_roundoff + total (fun x => angle_error eps (fst x)) l.
Proof. exact attitude_unit. Qed.
Print Assumptions C78_attitude.
Theorem C78_rotates : forall (L : Libm f64) eps, trig_within eps L -> eps <= / 16 -> forall l, Forall angle_ok l -> l <> [] ->
  forall (e : Z) t (v : val f64 t), (-1076 <= e <= 1013)%Z -> within e t v ->
  let s := renormalised (one TSpin) (map (fun x => exp_Biv (fst x)) l) in
  let E := fold_left gp (map snd l) cone in
  let r := mul _ TSpin (mul TSpin t s v) (reverse TSpin s) in
  let V := exactly t v in
  all_finite _ r /\
  cnorm (csub (exactly _ r) (gp (gp E V) (crev E))) <=
    (90 * unit_roundoff + 17 / 8 * total (fun x => angle_error eps (fst x)) l) * cnorm V + 60 * underflow_unit.
Proof. exact @attitude_rotates. Qed.
Print Assumptions C78_rotates.

(** Without normalisation no bound holds for all numbers of steps: a spinor
    one unit in the last place above 1, multiplied again and again. *)
Theorem C78_plain_refuted : medium above_one /\ Rabs (cnorm (exactly TSpin above_one) - 1) <= bpow radix2 (-52) /\
  forall M, exists n, let p := running_product above_one (repeat above_one n) in
    ~ (all_finite TSpin p /\ cnorm (exactly TSpin p) <= M).
Proof. exact plain_drifts. Qed.
Print Assumptions C78_plain_refuted.

(** The hypotheses hold for three equal turns. *)
Example C78_example : trig_within (bpow radix2 (-52)) rounded_lib /\ bpow radix2 (-52) <= / 16 /\
  let b := Biv (f64_lit 3 0) (f64_lit 0 0) (f64_lit (-4) 0) in
  exists E, Forall angle_ok [(b, E); (b, E); (b, E)] /\ medium above_one.
Proof. exact loop_case. Qed.
