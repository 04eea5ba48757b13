(** * Comparison and the sign of zero, larger tolerances.

    Only statements; proofs are in SameFacts.v. *)

Require Import Reals ZArith List Bool.
From Flocq Require Import Core BinarySingleNaN.
Require Import Verif.Num Verif.Types Verif.Priv Verif.OpsUni Verif.OpsAdd Verif.OpsSub Verif.OpsMul Verif.Const
  Verif.Validity Verif.Compare Verif.Func Verif.SpecCl Verif.Rel Verif.B64 Verif.SpecValid Verif.SpecCompare Verif.SpecSame Verif.SameFacts.
Import ListNotations.

(** C60: what [==] calls equal, [nearlyEquals] calls nearly equal. *)
Theorem C60_equal_nearly : forall t f (x y : val f64 t) tol, eqeq t = Some f -> f x y = true -> all_valid t x ->
  Bltb (B754_zero false) tol = true -> nearlyEquals t x y tol = true.
Proof. exact equal_nearly. Qed.
Print Assumptions C60_equal_nearly.
(** The answer does not depend on the signs of zeros. *)
Theorem C60_sign_of_zero : forall t (x x' y y' : val f64 t) tol,
  samev t x x' ->
  samev t y y' ->
  nearlyEquals t x y tol = nearlyEquals t x' y' tol.
Proof. exact nearly_sign. Qed.
Print Assumptions C60_sign_of_zero.
(** It stays true at larger tolerances, infinity included. *)
Theorem C60_tolerance : forall tol tol' : f64, Bleb tol tol' = true ->
  forall t (x y : val f64 t), nearlyEquals t x y tol = true -> nearlyEquals t x y tol' = true.
Proof. exact nearly_mono. Qed.
Print Assumptions C60_tolerance.
(** On [bool] it is equality. *)
Theorem C60_bool : forall a b, nearlyEquals_bool a b = true <-> a = b.
Proof. exact nearly_bool. Qed.
Print Assumptions C60_bool.
Example C60_example :
  nearlyEquals TVec (Vec (B754_zero true : f64) (f64_lit 1 0) (f64_lit 5 0)) (Vec (B754_zero false) (f64_lit 1 0) (f64_lit 5 0))
    (f64_lit 1 (-1074)) = true /\
  Bleb (f64_lit 1 0) (B754_infinity false : f64) = true.
Proof. split; vm_compute; reflexivity. Qed.

(** C61: nor do sums, differences, products, the four involutions, duals and
    squared magnitudes, except for the signs of their own zeros.  [same] allows
    NaN. *)
Theorem C61_product : forall a b (x x' : val f64 a) (y y' : val f64 b),
  samev a x x' -> samev b y y' ->
  samev (mulTy a b) (mul a b x y) (mul a b x' y').
Proof. exact mul_same. Qed.
Print Assumptions C61_product.
Theorem C61_sum : forall a b (x x' : val f64 a) (y y' : val f64 b),
  samev a x x' -> samev b y y' ->
  sameo (addTy a b) (add a b x y) (add a b x' y') /\ sameo (subTy a b) (sub a b x y) (sub a b x' y').
Proof. exact addsub_same. Qed.
Print Assumptions C61_sum.
Theorem C61_involutions : forall t (x x' : val f64 t), samev t x x' ->
  samev t (neg t x) (neg t x') /\
  samev t (reverse t x) (reverse t x') /\
  samev t (oddverse t x) (oddverse t x') /\
  samev t (dirverse t x) (dirverse t x') /\
  samev (dualTy t) (dual t x) (dual t x') /\
  same (magSq t x) (magSq t x').
Proof. exact uni_same. Qed.
Print Assumptions C61_involutions.
Example C61_example : (* quotients are different: 1/+0 and 1/-0 *)
  same (B754_zero true) (B754_zero false) /\
  ~ same (@ndiv f64 _ (f64_lit 1 0) (B754_zero true)) (ndiv (f64_lit 1 0) (B754_zero false)).
Proof. exact same_example. Qed.
