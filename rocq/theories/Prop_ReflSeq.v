(** * Sequences of reflections on doubles. *)

Require Import Reals ZArith List.
From Flocq Require Import Core BinarySingleNaN.
Require Import Verif.Num Verif.Types Verif.OpsUni Verif.OpsMul Verif.Func Verif.SpecCl Verif.SpecFunc Verif.SpecGeom Verif.RealInst
  Verif.B64 Verif.SpecRound Verif.SpecAcc Verif.SpecGeomAcc Verif.SpecReflSeq Verif.ReflSeq Verif.ReflAngle.
Import ListNotations.
Local Open Scope R_scope.

(** C103. A vector reflected in any number [k] of mirrors, one after the other,
    keeping the vector part of each result: the doubles stay finite and within
    [((1 + 72u)^k - 1) |v|] of the image that geometry defines, as long as
    that bound keeps the magnitude in range. *)
Theorem C103_any_number : forall (ns : list (Vector f64)) (v : Vector f64), Forall (sized TVec) ns -> all_finite TVec v ->
  let m := cnorm (exactly TVec v) in let k := length ns in let e := 72 * unit_roundoff in let ex := mapv (fun v : f64 => B2R v) TVec in
  bpow radix2 (-200) <= (1 - e) ^ k * m -> (1 + e) ^ k * m <= bpow radix2 200 ->
  all_finite TVec (reflect_all ns v) /\ (exists w, mirrored_all (map ex ns) (ex v) w) /\
  forall w, mirrored_all (map ex ns) (ex v) w -> cnorm (csub (exactly TVec (reflect_all ns v)) (den TVec w)) <= ((1 + e) ^ k - 1) * m.
Proof. exact reflections_accurate. Qed.
Print Assumptions C103_any_number.

(** Up to about 10^12 mirrors, the distance grows by [73 u |v|] with each. *)
Theorem C103_linear : forall (ns : list (Vector f64)) (v : Vector f64), Forall (sized TVec) ns -> all_finite TVec v ->
  let m := cnorm (exactly TVec v) in let k := INR (length ns) in let ex := mapv (fun v : f64 => B2R v) TVec in
  bpow radix2 (-199) <= m <= bpow radix2 199 -> k * (72 * unit_roundoff) <= / 73 ->
  all_finite TVec (reflect_all ns v) /\
  forall w, mirrored_all (map ex ns) (ex v) w -> cnorm (csub (exactly TVec (reflect_all ns v)) (den TVec w)) <= 73 * unit_roundoff * k * m.
Proof. exact many_reflections. Qed.
Print Assumptions C103_linear.

(** Twice in the same mirror gives the vector back. *)
Theorem C103_twice : forall n v : Vector f64, sized TVec n -> all_finite TVec v -> let m := cnorm (exactly TVec v) in
  bpow radix2 (-199) <= m <= bpow radix2 199 ->
  all_finite TVec (reflect_all [n; n] v) /\ cnorm (csub (exactly TVec (reflect_all [n; n] v)) (exactly TVec v)) <= 146 * unit_roundoff * m.
Proof. exact reflected_twice. Qed.
Print Assumptions C103_twice.

(** Inner products, and so lengths and angles, are kept up to [148 u k |a||b|]. *)
Theorem C103_angles : forall (ns : list (Vector f64)) (a b : Vector f64), Forall (sized TVec) ns -> all_finite TVec a -> all_finite TVec b ->
  let p := cnorm (exactly TVec a) in let q := cnorm (exactly TVec b) in let k := INR (length ns) in let ex := mapv (fun v : f64 => B2R v) TVec in
  bpow radix2 (-199) <= p <= bpow radix2 199 -> bpow radix2 (-199) <= q <= bpow radix2 199 -> k * (72 * unit_roundoff) <= / 73 ->
  Rabs (dot (ex (reflect_all ns a)) (ex (reflect_all ns b)) - dot (ex a) (ex b)) <= 148 * unit_roundoff * k * (p * q).
Proof. exact reflections_angles. Qed.
Print Assumptions C103_angles.

(** [25 e1] in the mirrors of [3 e1 + 4 e3], [e2] and [e3]. *)
Example C103_example : let z := f64_lit 0 0 in let o := f64_lit 1 0 in let n := Vec (f64_lit 3 0) z (f64_lit 4 0) : Vector f64 in
  let ns := [n; Vec z o z; Vec z z o] in let v := Vec (f64_lit 25 0) z z : Vector f64 in
  let m := cnorm (exactly TVec v) in let e := 72 * unit_roundoff in let ex := mapv (fun v : f64 => B2R v) TVec in
  Forall (sized TVec) ns /\ all_finite TVec v /\ m = 25 /\ bpow radix2 (-199) <= m <= bpow radix2 199 /\ INR (length ns) * (72 * unit_roundoff) <= / 73 /\
  bpow radix2 (-200) <= (1 - e) ^ length ns * m /\ (1 + e) ^ length ns * m <= bpow radix2 200 /\
  mirrored_all (map ex ns) (ex v) (Vec 7 0 24).
Proof. exact example_refl. Qed.
