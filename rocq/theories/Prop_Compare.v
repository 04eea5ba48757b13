(** * nearlyEquals and operator== on binary64 numbers.

    Only statements; proofs are in CompareFacts.v, ArrFacts.v, CompareThm.v. *)

Require Import Reals ZArith List Bool Lra Lia.
From Flocq Require Import Core BinarySingleNaN.
Require Import Verif.Num Verif.Types Verif.Priv Verif.Const Verif.Validity Verif.Compare Verif.B64
  Verif.SpecValid Verif.SpecCompare Verif.CompareFacts Verif.ArrFacts Verif.CompareThm Verif.ExtentFacts.
Import ListNotations.
Local Open Scope R_scope.

(** C34 *)
Theorem C34_sound : forall a b tol : f64, is_finite tol = true -> nearlyEqualsAbs a b tol = true ->
  valid_number a /\ valid_number b /\ Rabs (B2R a - B2R b) < B2R tol.
Proof. exact abs_sound. Qed.
Print Assumptions C34_sound.
Theorem C34_symmetric : forall a b tol : f64, nearlyEqualsAbs a b tol = nearlyEqualsAbs b a tol.
Proof. exact abs_sym. Qed.
Print Assumptions C34_symmetric.
Theorem C34_reflexive : forall a tol : f64, valid_number a -> Bltb (B754_zero false) tol = true ->
  nearlyEqualsAbs a a tol = true.
Proof. exact abs_refl. Qed.
Print Assumptions C34_reflexive.
(** [t'] is any double below the tolerance, for instance its predecessor. *)
Theorem C34_complete : forall a b tol t' : f64, valid_number a -> valid_number b ->
  is_finite tol = true -> Rabs (B2R a - B2R b) <= B2R t' -> B2R t' < B2R tol ->
  nearlyEqualsAbs a b tol = true.
Proof. exact abs_complete. Qed.
Print Assumptions C34_complete.
Example C34_example : (* at the tolerance itself the answer is no *)
  nearlyEqualsAbs (f64_lit 3 0) (f64_lit 2 0) (f64_lit 1 1) = true /\
  nearlyEqualsAbs (f64_lit 3 0) (f64_lit 2 0) (f64_lit 1 0) = false.
Proof. split; vm_compute; reflexivity. Qed.

(** C35 *)
Theorem C35_reflexive : forall t (x : val f64 t) tol, all_valid t x ->
  Bltb (B754_zero false) tol = true -> nearlyEquals t x x tol = true.
Proof. exact nearly_refl. Qed.
Print Assumptions C35_reflexive.
Theorem C35_invalid : forall t (x y : val f64 t) tol, ~ all_valid t x \/ ~ all_valid t y ->
  nearlyEquals t x y tol = false.
Proof. exact nearly_invalid. Qed.
Print Assumptions C35_invalid.
Example C35_example : (* NaN behind a valid first component is seen here *)
  nearlyEquals TVec (Vec (f64_lit 1 0) B754_nan (f64_lit 1 0)) (Vec (f64_lit 1 0) B754_nan (f64_lit 1 0))
    (f64_lit 1 9) = false /\
  nearlyEquals TVec (Vec (f64_lit 1 0) (f64_lit 1 700) (f64_lit 1 0)) (Vec (f64_lit 1 0) (f64_lit 1 700) (f64_lit 1 0))
    (f64_lit 1 (-1022)) = true.
Proof. split; vm_compute; reflexivity. Qed.

(** C36: [0 < tol] fails, that is [tol] is zero, negative or NaN. *)
Theorem C36_objects : forall t (x y : val f64 t) tol, Bltb (B754_zero false) tol = false ->
  nearlyEquals t x y tol = false.
Proof. exact nearly_nonpos. Qed.
Print Assumptions C36_objects.
Theorem C36_numbers : forall a b tol : f64, Bltb (B754_zero false) tol = false ->
  nearlyEqualsAbs a b tol = false /\ nearlyEqualsRel a b tol = false.
Proof. exact (fun a b tol H => conj (abs_nonpos a b tol H) (rel_nonpos a b tol H)). Qed.
Print Assumptions C36_numbers.
Theorem C36_arrays : forall (a b : list f64) tol, Bltb (B754_zero false) tol = false ->
  nearlyEquals_arr a b tol = false.
Proof. exact arr_nonpos. Qed.
Print Assumptions C36_arrays.
Example C36_example :
  Bltb (B754_zero false) (B754_nan : f64) = false /\ Bltb (B754_zero false) (f64_lit (-1) 0) = false /\
  Bltb (B754_zero false) (B754_zero true : f64) = false.
Proof. repeat split; vm_compute; reflexivity. Qed.

(** C37 *)
Theorem C37_sound : forall a b tol : f64, is_finite tol = true -> nearlyEqualsRel a b tol = true ->
  valid_number a /\ valid_number b /\
  (Rabs (B2R b) < bpow radix2 (-970) -> Rabs (B2R a - B2R b) < B2R tol) /\
  (bpow radix2 (-970) <= Rabs (B2R b) ->
     Rabs (B2R a / B2R b - 1) < B2R tol + rel_err * Rabs (B2R a / B2R b) + abs_err).
Proof. exact rel_sound. Qed.
Print Assumptions C37_sound.
Theorem C37_complete : forall a b tol t' : f64, valid_number a -> valid_number b ->
  is_finite tol = true -> bpow radix2 (-970) <= Rabs (B2R b) ->
  Rabs (B2R a / B2R b - 1) + rel_err * Rabs (B2R a / B2R b) + abs_err <= B2R t' ->
  B2R t' < B2R tol -> nearlyEqualsRel a b tol = true.
Proof. exact rel_complete. Qed.
Print Assumptions C37_complete.
Theorem C37_reflexive : forall a tol : f64, valid_number a -> Bltb (B754_zero false) tol = true ->
  nearlyEqualsRel a a tol = true.
Proof. exact rel_refl. Qed.
Print Assumptions C37_reflexive.
Theorem C37_not_symmetric :
  nearlyEqualsRel (f64_lit 1 0) (f64_lit 1 1) (f64_lit 3 (-2)) = true /\
  nearlyEqualsRel (f64_lit 1 1) (f64_lit 1 0) (f64_lit 3 (-2)) = false.
Proof. exact rel_asym. Qed.
Print Assumptions C37_not_symmetric.
Example C37_example : (* 7 and 8 at 1/4; 1/8 + errors <= 3/16 *)
  let a := f64_lit 7 0 in let b := f64_lit 8 0 in
  valid_number a /\ valid_number b /\ bpow radix2 (-970) <= Rabs (B2R b) /\
  Rabs (B2R a / B2R b - 1) + rel_err * Rabs (B2R a / B2R b) + abs_err <= B2R (f64_lit 3 (-4)) /\
  B2R (f64_lit 3 (-4)) < B2R (f64_lit 1 (-2)) /\ nearlyEqualsRel a b (f64_lit 1 (-2)) = true.
Proof.
  cbv zeta. destruct (lit_of 7 0 ltac:(cbn; lia) ltac:(lia)) as [F7 E7].
  destruct (lit_of 8 0 ltac:(cbn; lia) ltac:(lia)) as [F8 E8].
  destruct (lit_of 3 (-4) ltac:(cbn; lia) ltac:(lia)) as [_ E3].
  destruct (lit_of 1 (-2) ltac:(cbn; lia) ltac:(lia)) as [_ E1].
  cbn [bpow] in E7, E8. change (bpow radix2 (-4)) with (/ 16) in E3. change (bpow radix2 (-2)) with (/ 4) in E1.
  unfold valid_number; rewrite E7, E8, E3, E1.
  assert (G1 : bpow radix2 (-1022) <= 1) by (apply (bpow_le radix2 (-1022) 0); lia).
  assert (G2 : bpow radix2 (-970) <= 1) by (apply (bpow_le radix2 (-970) 0); lia).
  assert (G3 : rel_err <= / 64) by (apply (bpow_le radix2 (-53) (-6)); lia).
  assert (G4 : abs_err <= / 64) by (apply (bpow_le radix2 (-1075) (-6)); lia).
  assert (G5 : 0 <= rel_err) by apply bpow_ge_0.
  rewrite !(Rabs_pos_eq (_ * 1)) by lra.
  replace (Rabs (7 * 1 / (8 * 1) - 1)) with (/ 8) by (rewrite Rabs_left; lra).
  replace (Rabs (7 * 1 / (8 * 1))) with (7 / 8) by (rewrite Rabs_pos_eq; lra).
  repeat split; try assumption; try (right; lra); try lra; vm_compute; reflexivity.
Qed.

(** C38.  Arrays of any length, in exact terms.  If some reference component
    has a square above 2^-1075 the comparison is of relative distance,
    otherwise of each difference. *)
Theorem C38_sound : forall (g r : list f64) tol, g <> [] -> length g = length r ->
  is_finite tol = true -> let n := length g in
  let hi := (1 + rel_err) ^ (n + 1) * norm2 r + INR n * (1 + rel_err) ^ n * abs_err in
  hi <= bpow radix2 1023 ->
  nearlyEquals_arr g r tol = true ->
  Forall valid_number g /\ Forall valid_number r /\
  (Forall (fun v => B2R v * B2R v <= abs_err) r ->
     Forall2 (fun x y => Rabs (B2R x - B2R y) < B2R tol) g r) /\
  (~ Forall (fun v => B2R v * B2R v <= abs_err) r ->
     (1 - rel_err) ^ (n + 4) * dist2 g r <= (B2R tol * B2R tol + abs_err) * hi + INR n * abs_err).
Proof. exact arr_sound. Qed.
Print Assumptions C38_sound.
Theorem C38_complete : forall (g r : list f64) (tol t' : f64), g <> [] -> length g = length r ->
  is_finite tol = true -> Forall valid_number g -> Forall valid_number r ->
  ~ Forall (fun v => B2R v * B2R v <= abs_err) r ->
  let n := length g in
  let hiD := (1 + rel_err) ^ (n + 3) * dist2 g r + INR n * (1 + rel_err) ^ n * abs_err in
  let hiR := (1 + rel_err) ^ (n + 1) * norm2 r + INR n * (1 + rel_err) ^ n * abs_err in
  hiD <= bpow radix2 1023 -> hiR <= bpow radix2 1023 ->
  let loR := (1 - rel_err) ^ (n + 1) * norm2 r - INR n * abs_err in
  0 < loR -> 0 <= B2R t' <= bpow radix2 511 ->
  (1 + rel_err) * hiD + abs_err * loR <= B2R t' * B2R t' * loR -> B2R t' < B2R tol ->
  nearlyEquals_arr g r tol = true.
Proof. exact arr_complete. Qed.
Print Assumptions C38_complete.
(** Objects, grade by grade, with the bound in round numbers. *)
Theorem C38_objects : forall t (x y : val f64 t) tol, t <> TDub -> is_finite tol = true ->
  nearlyEquals t x y tol = true ->
  Forall (fun p => let g := slice (elems t x) p in let r := slice (elems t y) p in
    bpow radix2 (-900) <= norm2 r <= bpow radix2 1022 ->
    dist2 g r <= (1 + bpow radix2 (-49)) * (B2R tol * B2R tol + bpow radix2 (-160)) * norm2 r) (slices t).
Proof. exact object_sound. Qed.
Print Assumptions C38_objects.
(** Outside the range: a vector off by more than half its length compares
    equal at every positive tolerance. *)
Theorem C38_overflow_refuted :
  (forall tol : f64, Bltb (B754_zero false) tol = true ->
    nearlyEquals TVec (Vec (B754_zero false) bigx bigx) (Vec bigx bigx bigx) tol = true) /\
  3 * dist2 [B754_zero false : f64; bigx; bigx] [bigx; bigx; bigx] = norm2 [bigx; bigx; bigx] /\
  valid_number bigx /\ B2R bigx = 5 * bpow radix2 509.
Proof. exact (conj overflow_true (conj overflow_ratio (conj bigx_valid (proj2 bigx_ok)))). Qed.
Print Assumptions C38_overflow_refuted.
Example C38_example : (* relative, not absolute *)
  nearlyEquals TVec (Vec (f64_lit 1 40) (f64_lit 1 40) (f64_lit 2 0)) (Vec (f64_lit 1 40) (f64_lit 1 40) (f64_lit 1 0))
    (f64_lit 1 (-40)) = true /\
  nearlyEquals TVec (Vec (f64_lit 1 40) (f64_lit 1 40) (f64_lit 3 0)) (Vec (f64_lit 1 40) (f64_lit 1 40) (f64_lit 1 0))
    (f64_lit 1 (-40)) = false.
Proof. split; vm_compute; reflexivity. Qed.

(** C39: for each type that has the operator. *)
Theorem C39_componentwise : forall t f (x y : val f64 t), eqeq t = Some f ->
  (f x y = true <-> Forall2 ieee_equal (elems t x) (elems t y)).
Proof. exact eqeq_spec. Qed.
Print Assumptions C39_componentwise.
Theorem C39_symmetric : forall t f (x y : val f64 t), eqeq t = Some f -> f x y = f y x.
Proof. exact eqeq_sym. Qed.
Print Assumptions C39_symmetric.
Theorem C39_transitive : forall t f (x y z : val f64 t), eqeq t = Some f ->
  f x y = true -> f y z = true -> f x z = true.
Proof. exact eqeq_trans. Qed.
Print Assumptions C39_transitive.
Theorem C39_reflexive : forall t f (x : val f64 t), eqeq t = Some f ->
  (f x x = true <-> Forall (fun v => is_nan v = false) (elems t x)).
Proof. exact eqeq_refl. Qed.
Print Assumptions C39_reflexive.
Example C39_example : forall f, eqeq TVec = Some f -> (* not bit-wise *)
  f (Vec (B754_zero true : f64) (f64_lit 1 0) (f64_lit 2 0)) (Vec (B754_zero false) (f64_lit 1 0) (f64_lit 2 0)) = true /\
  f (Vec (B754_nan : f64) (f64_lit 1 0) (f64_lit 2 0)) (Vec (B754_nan : f64) (f64_lit 1 0) (f64_lit 2 0)) = false.
Proof. intros f E. injection E as <-. split; vm_compute; reflexivity. Qed.
