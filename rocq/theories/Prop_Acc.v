(** * Range and accuracy of the operators and functions on binary64 numbers.

    Only statements; proofs are in BoundFacts.v, AccFacts.v, NormFacts.v,
    AccThm.v.  [unit_roundoff] is 2^-53, [underflow_unit] 2^-1075. *)

Require Import Reals ZArith List Bool.
From Flocq Require Import Core BinarySingleNaN.
Require Import Verif.Num Verif.Types Verif.Priv Verif.OpsUni Verif.OpsAdd Verif.OpsSub Verif.OpsMul
  Verif.Const Verif.Func Verif.SpecCl Verif.SpecFunc Verif.B64 Verif.SpecRound Verif.SpecAcc
  Verif.BoundFacts Verif.AccFacts Verif.NormFacts Verif.AccThm.
Import ListNotations.
Local Open Scope R_scope.

(** C54: bounded operands give finite, bounded results. *)
Theorem C54_product : forall (ea eb : Z) a b (x : val f64 a) (y : val f64 b),
  (-1074 <= ea + eb)%Z -> (ea + eb + 3 <= 1023)%Z ->
  within ea a x -> within eb b y -> within (ea + eb + 3) (mulTy a b) (mul a b x y).
Proof. exact mul_within. Qed.
Print Assumptions C54_product.
Theorem C54_sum : forall (e : Z) a b (x : val f64 a) (y : val f64 b), (-1075 <= e <= 1022)%Z ->
  within e a x -> within e b y -> if_exists (fun t r => within (e + 1) t r) (addTy a b) (add a b x y).
Proof. exact add_within. Qed.
Print Assumptions C54_sum.
Theorem C54_difference : forall (e : Z) a b (x : val f64 a) (y : val f64 b), (-1075 <= e <= 1022)%Z ->
  within e a x -> within e b y -> if_exists (fun t r => within (e + 1) t r) (subTy a b) (sub a b x y).
Proof. exact sub_within. Qed.
Print Assumptions C54_difference.
Theorem C54_magSq : forall (e : Z) t (x : val f64 t), (-537 <= e <= 510)%Z -> within e t x ->
  is_finite (magSq t x) = true /\ Rabs (B2R (magSq t x)) <= bpow radix2 (2 * e + 3).
Proof. exact magSq_within. Qed.
Print Assumptions C54_magSq.
Example C54_example : within 3 TVec (Vec (f64_lit 3 0) (f64_lit (-4) 0) (f64_lit 8 0)).
Proof. exact example_within. Qed.

(** C55: magnitudes. *)
Theorem C55_magSq_not_negative : forall t (x : val f64 t), Bltb (magSq t x) (B754_zero false) = false.
Proof. exact magSq_notneg. Qed.
Print Assumptions C55_magSq_not_negative.
Theorem C55_magSq : forall t (x : val f64 t), is_finite (magSq t x) = true ->
  Rabs (B2R (magSq t x) - cnorm2 (exactly t x)) <= 9 * unit_roundoff * cnorm2 (exactly t x) + 9 * underflow_unit.
Proof. exact magSq_error. Qed.
Print Assumptions C55_magSq.
Theorem C55_magnitude : forall t (x : val f64 t), is_finite (magSq t x) = true ->
  bpow radix2 (-480) <= cnorm (exactly t x) ->
  is_finite (magnitude t x) = true /\
  Rabs (B2R (magnitude t x) - cnorm (exactly t x)) <= 8 * unit_roundoff * cnorm (exactly t x).
Proof. exact magnitude_error. Qed.
Print Assumptions C55_magnitude.
(** At the ends of the range: a component of 2^512 makes the squared magnitude
    infinite, components up to 2^-538 make it zero. *)
Theorem C55_overflow : forall t (x : val f64 t), all_finite t x ->
  Exists (fun v => bpow radix2 512 <= Rabs (B2R v)) (elems t x) -> magSq t x = B754_infinity false.
Proof. exact magSq_huge. Qed.
Print Assumptions C55_overflow.
Theorem C55_underflow : forall t (x : val f64 t), all_finite t x ->
  Forall (fun v => Rabs (B2R v) <= bpow radix2 (-538)) (elems t x) -> magSq t x = B754_zero false.
Proof. exact magSq_tiny. Qed.
Print Assumptions C55_underflow.
Example C55_example :
  let x := Vec (f64_lit 3 0) (f64_lit 0 0) (f64_lit 4 0) in
  is_finite (magSq TVec x) = true /\ cnorm (exactly TVec x) = 5 /\ bpow radix2 (-480) <= 5.
Proof. cbv zeta. split; [vm_compute; reflexivity|]. split; [exact (proj2 example_norm)|exact (proj1 range_5)]. Qed.

(** C56: direction and inverse. *)
Theorem C56_direction : forall t (x : val f64 t), all_finite t x ->
  bpow radix2 (-480) <= cnorm (exactly t x) <= bpow radix2 480 ->
  all_finite t (direction t x) /\
  forall k, Rabs (exactly t (direction t x) k - exactly t x k / cnorm (exactly t x))
    <= 14 * unit_roundoff * (Rabs (exactly t x k) / cnorm (exactly t x)) + underflow_unit.
Proof. exact direction_accurate. Qed.
Print Assumptions C56_direction.
Theorem C56_direction_unit : forall t (x : val f64 t), all_finite t x ->
  bpow radix2 (-480) <= cnorm (exactly t x) <= bpow radix2 480 ->
  Rabs (cnorm (exactly t (direction t x)) - 1) <= 15 * unit_roundoff.
Proof. exact direction_unit. Qed.
Print Assumptions C56_direction_unit.
Theorem C56_inverse :
  inverts TSca inverse_Sca /\ inverts TVec inverse_Vec /\ inverts TBiv inverse_Biv /\ inverts TTri inverse_Tri.
Proof. exact blades_invert. Qed.
Print Assumptions C56_inverse.
Theorem C56_inverse_range_refuted :
  inverse_breaks TSca inverse_Sca /\ inverse_breaks TVec inverse_Vec /\
  inverse_breaks TBiv inverse_Biv /\ inverse_breaks TTri inverse_Tri.
Proof. exact blades_break. Qed.
Print Assumptions C56_inverse_range_refuted.
Example C56_example :
  let x := Vec (f64_lit 3 0) (f64_lit 0 0) (f64_lit 4 0) in
  all_finite TVec x /\ bpow radix2 (-480) <= cnorm (exactly TVec x) <= bpow radix2 480.
Proof. cbv zeta. rewrite (proj2 example_norm). split; [exact (proj1 example_norm)|exact range_5]. Qed.
(** 2^-600 e1, a normal number whose reciprocal 2^600 is one too. *)
Example C56_example_small :
  inverse_Vec (Vec (f64_lit 1 (-600)) (f64_lit 0 0) (f64_lit 0 0)) =
    Vec (B754_infinity false) B754_nan B754_nan.
Proof. vm_compute. reflexivity. Qed.

(** C57: products in norm. *)
Theorem C57_product : forall a b (x : val f64 a) (y : val f64 b), all_finite (mulTy a b) (mul a b x y) ->
  cnorm (csub (exactly (mulTy a b) (mul a b x y)) (gp (exactly a x) (exactly b y)))
    <= 26 * unit_roundoff * (cnorm (exactly a x) * cnorm (exactly b y)) + 26 * underflow_unit.
Proof. exact mul_norm_error. Qed.
Print Assumptions C57_product.
(** Rotating a vector: s * v * reverse(s); the trivector part is rounding error only. *)
Theorem C57_rotation : forall (s : Spinor f64) (v : Vector f64),
  let r := mul TImsp TSpin (mul TSpin TVec s v) (reverse TSpin s) in
  all_finite TImsp r ->
  let S := exactly TSpin s in
  let bound := 53 * unit_roundoff * (cnorm2 S * cnorm (exactly TVec v)) + 27 * underflow_unit * (1 + cnorm S) in
  cnorm (csub (exactly TImsp r) (gp (gp S (exactly TVec v)) (crev S))) <= bound /\
  Rabs (exactly TImsp r bE123) <= bound.
Proof. exact rotation_error. Qed.
Print Assumptions C57_rotation.
(** Composing any number of rotors. *)
Theorem C57_long_product : forall M s l, 1 <= M -> (forall q, In q l -> cnorm (exactly TSpin q) <= M) ->
  all_finite TSpin (running_product s l) ->
  cnorm (csub (exactly TSpin (running_product s l)) (exact_product s l)) <=
    ((1 + 26 * unit_roundoff) ^ length l - 1) * norm_product s l +
    26 * underflow_unit * (INR (length l) * ((1 + 26 * unit_roundoff) * M) ^ length l).
Proof. exact long_product. Qed.
Print Assumptions C57_long_product.
Example C57_example :
  all_finite TImsp (mul TImsp TSpin (mul TSpin TVec
    (mkSpin (Sca (f64_lit 3 (-2))) (Biv (f64_lit 1 (-1)) (f64_lit 1 (-3)) (f64_lit 0 0)))
    (Vec (f64_lit 5 0) (f64_lit 7 0) (f64_lit (-1) 0)))
    (reverse TSpin (mkSpin (Sca (f64_lit 3 (-2))) (Biv (f64_lit 1 (-1)) (f64_lit 1 (-3)) (f64_lit 0 0))))).
Proof. unfold all_finite. repeat constructor; vm_compute; reflexivity. Qed.
