(** * Rounding behaviour of the operators on binary64 numbers.

    Only statements; proofs are in CommFacts.v, RoundThm.v, ErrFacts.v,
    IntFacts.v.  Doubles have a single NaN here: payloads are not told apart. *)

Require Import Reals ZArith List Bool.
From Flocq Require Import Core BinarySingleNaN.
Require Import Verif.Num Verif.Types Verif.Priv Verif.OpsAdd Verif.OpsSub Verif.OpsMul Verif.Func
  Verif.SpecCl Verif.B64 Verif.SpecRound Verif.RoundThm Verif.ErrFacts Verif.IntFacts.
Import ListNotations.
Local Open Scope R_scope.

(** C40 *)
Theorem C40_sum_commutes : forall a b (x : val f64 a) (y : val f64 b), addTy a b = addTy b a /\
  components (addTy a b) (add a b x y) = components (addTy b a) (add b a y x).
Proof. exact add_commute. Qed.
Print Assumptions C40_sum_commutes.
Theorem C40_scalar_is_double : forall b (d : f64) (y : val f64 b),
  elems (mulTy TDub b) (mul TDub b d y) = elems (mulTy b TDub) (mul b TDub y d) /\
  elems (mulTy TSca b) (mul TSca b (Sca d) y) = elems (mulTy TDub b) (mul TDub b d y) /\
  elems (mulTy b TSca) (mul b TSca y (Sca d)) = elems (mulTy b TDub) (mul b TDub y d).
Proof. exact scale_commute. Qed.
Print Assumptions C40_scalar_is_double.
Theorem C40_central_commutes : forall a b (x : val f64 a) (y : val f64 b),
  a = TDub \/ a = TSca \/ a = TTri \/ a = TCplx ->
  elems (mulTy a b) (mul a b x y) = elems (mulTy b a) (mul b a y x).
Proof. exact central_commute. Qed.
Print Assumptions C40_central_commutes.
Theorem C40_difference_anticommutes : forall a b (x : val f64 a) (y : val f64 b),
  ~ wrong_sign_pair a b -> ~ wrong_sign_pair b a ->
  Forall2 same_but_zero_sign (components (subTy b a) (sub b a y x))
    (map Bopp (components (subTy a b) (sub a b x y))).
Proof. exact sub_anticommute. Qed.
Print Assumptions C40_difference_anticommutes.
(** The overloads of wrong sign return the bits of the swapped difference. *)
Theorem C40_wrong_sign_pairs : forall a b (x : val f64 a) (y : val f64 b), wrong_sign_pair a b ->
  components (subTy a b) (sub a b x y) = components (subTy b a) (sub b a y x).
Proof. exact sub_redirect. Qed.
Print Assumptions C40_wrong_sign_pairs.
Example C40_example :
  components (subTy TSca TSca) (sub TSca TSca (Sca (f64_lit 1 0)) (Sca (f64_lit 1 0))) = [B754_zero false] /\
  ~ wrong_sign_pair TSca TBiv /\ wrong_sign_pair TBiv TSca /\
  length (components (subTy TMvec TVec) (sub TMvec TVec
    (mkMvec (Sca (f64_lit 1 0)) (Vec (f64_lit 1 0) (f64_lit 1 0) (f64_lit 1 0))
       (Biv (f64_lit 1 0) (f64_lit 1 0) (f64_lit 1 0)) (Tri (f64_lit 1 0)))
    (Vec (f64_lit 2 0) (f64_lit 1 700) B754_nan))) = 8%nat.
Proof.
  split; [vm_compute; reflexivity|]. split; [|split; [left; reflexivity|reflexivity]].
  intros H; unfold wrong_sign_pair in H; intuition congruence.
Qed.

(** C41: a product whose result has no infinity or NaN. *)
Theorem C41_product : forall a b (x : val f64 a) (y : val f64 b),
  all_finite (mulTy a b) (mul a b x y) ->
  forall k, Rabs (exactly (mulTy a b) (mul a b x y) k - gp (exactly a x) (exactly b y) k)
    <= 9 * unit_roundoff * gp_abs (exactly a x) (exactly b y) k + 9 * underflow_unit.
Proof. exact mul_error. Qed.
Print Assumptions C41_product.
(** Sums and differences are correctly rounded. *)
Theorem C41_sum : forall a b (x : val f64 a) (y : val f64 b),
  if_exists (fun t r => all_finite t r -> forall k, exactly t r k = nearest64 (exactly a x k + exactly b y k))
    (addTy a b) (add a b x y).
Proof. exact add_near. Qed.
Print Assumptions C41_sum.
Theorem C41_difference : forall a b (x : val f64 a) (y : val f64 b), ~ wrong_sign_pair a b ->
  if_exists (fun t r => all_finite t r -> forall k, exactly t r k = nearest64 (exactly a x k - exactly b y k))
    (subTy a b) (sub a b x y).
Proof. exact sub_near. Qed.
Print Assumptions C41_difference.
Example C41_example : (* (1 + 2^-52)^2 is rounded *)
  all_finite (mulTy TVec TVec) (mul TVec TVec
    (Vec (f64_lit (2 ^ 52 + 1) (-52)) (B754_zero false) (B754_zero true))
    (Vec (f64_lit (2 ^ 52 + 1) (-52)) (B754_zero false) (f64_lit 3 500))) /\
  sca_0 (spinSca (mul TVec TVec
    (Vec (f64_lit (2 ^ 52 + 1) (-52)) (B754_zero false) (B754_zero true))
    (Vec (f64_lit (2 ^ 52 + 1) (-52)) (B754_zero false) (f64_lit 3 500))))
  = f64_lit (2 ^ 52 + 2) (-52).
Proof. split; [repeat constructor; vm_compute; reflexivity|]. apply B2SF_inj; vm_compute; reflexivity. Qed.

(** C42 *)
Theorem C42_product : forall a b (x : val f64 a) (y : val f64 b), small_integers a x -> small_integers b y ->
  all_finite (mulTy a b) (mul a b x y) /\
  ceq (exactly (mulTy a b) (mul a b x y)) (gp (exactly a x) (exactly b y)).
Proof. exact mul_exact. Qed.
Print Assumptions C42_product.
Theorem C42_sum : forall a b (x : val f64 a) (y : val f64 b), small_integers a x -> small_integers b y ->
  if_exists (fun t r => all_finite t r /\ ceq (exactly t r) (cadd (exactly a x) (exactly b y)))
    (addTy a b) (add a b x y).
Proof. exact add_exact. Qed.
Print Assumptions C42_sum.
(** The wrong sign pairs return exactly the opposite. *)
Theorem C42_difference : forall a b (x : val f64 a) (y : val f64 b), small_integers a x -> small_integers b y ->
  if_exists (fun t r => all_finite t r /\
      (~ wrong_sign_pair a b -> ceq (exactly t r) (csub (exactly a x) (exactly b y))) /\
      (wrong_sign_pair a b -> ceq (exactly t r) (csub (exactly b y) (exactly a x))))
    (subTy a b) (sub a b x y).
Proof. exact sub_exact_pairs. Qed.
Print Assumptions C42_difference.
Theorem C42_magSq : forall t (x : val f64 t), small_integers t x ->
  is_finite (magSq t x) = true /\ B2R (magSq t x) = cnorm2 (exactly t x).
Proof. exact magSq_exact. Qed.
Print Assumptions C42_magSq.
Example C42_example :
  small_integers TVec (Vec (f64_lit 16777216 0) (f64_lit (-16777215) 0) (f64_lit 3 0)).
Proof. exact small_example. Qed.
