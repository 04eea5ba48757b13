(** * Scaling by powers of two.

    Only statements; proofs are in ScaleFacts.v and ScaleThm.v. *)

Require Import Reals ZArith List Bool Lra.
From Flocq Require Import Core BinarySingleNaN.
Require Import Verif.Num Verif.Types Verif.Priv Verif.OpsUni Verif.OpsAdd Verif.OpsSub Verif.OpsMul Verif.Const
  Verif.Func Verif.Compare Verif.SpecCl Verif.SpecFunc Verif.B64 Verif.SpecRound Verif.SpecCompare Verif.SpecScale
  Verif.ScaleFacts Verif.ScaleThm.
Import ListNotations.
Local Open Scope R_scope.

(** C72: scaling the operands of a product by powers of two scales the result,
    bit for bit, if nothing overflows and no product of two components
    underflows; for components from 2^-500 to 2^500 always. *)
Theorem C72_product : forall j k a b (x : val f64 a) (y : val f64 b) x' y', scaledv j a x x' -> scaledv k b y y' ->
  (forall u w, In u (elems a x) -> In w (elems b y) -> no_underflow (j + k) u w) ->
  all_finite (mulTy a b) (mul a b x y) -> all_finite (mulTy a b) (mul a b x' y') ->
  scaledv (j + k) (mulTy a b) (mul a b x y) (mul a b x' y').
Proof. exact mul_scaled. Qed.
Print Assumptions C72_product.
Theorem C72_product_range : forall j k a b (x : val f64 a) (y : val f64 b) x' y', scaledv j a x x' -> scaledv k b y y' ->
  betweenv 500 a x -> betweenv 500 b y -> betweenv 500 a x' -> betweenv 500 b y' ->
  scaledv (j + k) (mulTy a b) (mul a b x y) (mul a b x' y').
Proof. exact product_range. Qed.
Print Assumptions C72_product_range.

(** Sums and differences, underflow included. *)
Theorem C72_sum : forall e a b (x : val f64 a) (y : val f64 b) x' y', scaledv e a x x' -> scaledv e b y y' ->
  Forall (fun v : f64 => is_finite v = true) (components (addTy a b) (add a b x y)) ->
  Forall (fun v : f64 => is_finite v = true) (components (addTy a b) (add a b x' y')) ->
  Forall2 (scaled e) (components (addTy a b) (add a b x y)) (components (addTy a b) (add a b x' y')).
Proof. exact add_scaled. Qed.
Print Assumptions C72_sum.
Theorem C72_difference : forall e a b (x : val f64 a) (y : val f64 b) x' y', scaledv e a x x' -> scaledv e b y y' ->
  Forall (fun v : f64 => is_finite v = true) (components (subTy a b) (sub a b x y)) ->
  Forall (fun v : f64 => is_finite v = true) (components (subTy a b) (sub a b x' y')) ->
  Forall2 (scaled e) (components (subTy a b) (sub a b x y)) (components (subTy a b) (sub a b x' y')).
Proof. exact sub_scaled. Qed.
Print Assumptions C72_difference.

(** Functions that move and negate components. *)
Theorem C72_unary : forall e t (x x' : val f64 t), scaledv e t x x' ->
  scaledv e t (neg t x) (neg t x') /\ scaledv e t (reverse t x) (reverse t x') /\
  scaledv e t (oddverse t x) (oddverse t x') /\ scaledv e t (dirverse t x) (dirverse t x') /\
  scaledv e (dualTy t) (dual t x) (dual t x') /\ scaledv e TMvec (to_mv t x) (to_mv t x').
Proof. exact unary_scaled. Qed.
Print Assumptions C72_unary.

(** Magnitudes. *)
Theorem C72_magnitude : forall e t (x x' : val f64 t), scaledv e t x x' -> betweenv 400 t x -> betweenv 400 t x' ->
  scaled (e + e) (magSq t x) (magSq t x') /\ scaled e (magnitude t x) (magnitude t x').
Proof.
  exact (fun e t x x' S B B' => conj (magSq_range 400 e t x x' (Z.le_refl _) S B B')
    (magnitude_range 400 e t x x' (Z.le_refl _) S B B')).
Qed.
Print Assumptions C72_magnitude.

(** The direction does not depend on the scale at all; the inverse scales by
    the opposite power. *)
Theorem C72_direction : forall e t (x x' : val f64 t), scaledv e t x x' -> betweenv 200 t x -> betweenv 200 t x' ->
  nonzero t x -> direction t x' = direction t x.
Proof. exact direction_same. Qed.
Print Assumptions C72_direction.
Theorem C72_inverse : forall e,
  (forall x x', scaledv e TSca x x' -> betweenv 200 TSca x -> betweenv 200 TSca x' -> nonzero TSca x ->
    scaledv (- e) TSca (inverse_Sca x) (inverse_Sca x')) /\
  (forall x x', scaledv e TVec x x' -> betweenv 200 TVec x -> betweenv 200 TVec x' -> nonzero TVec x ->
    scaledv (- e) TVec (inverse_Vec x) (inverse_Vec x')) /\
  (forall x x', scaledv e TBiv x x' -> betweenv 200 TBiv x -> betweenv 200 TBiv x' -> nonzero TBiv x ->
    scaledv (- e) TBiv (inverse_Biv x) (inverse_Biv x')) /\
  (forall x x', scaledv e TTri x x' -> betweenv 200 TTri x -> betweenv 200 TTri x' -> nonzero TTri x ->
    scaledv (- e) TTri (inverse_Tri x) (inverse_Tri x')).
Proof. exact inverses_range. Qed.
Print Assumptions C72_inverse.

(** Comparison: the answer does not depend on the scale if every grade of the
    reference is nonzero. *)
Theorem C72_compare : forall e t (x y x' y' : val f64 t) tol, scaledv e t x x' -> scaledv e t y y' ->
  betweenv 200 t x -> betweenv 200 t y -> betweenv 200 t x' -> betweenv 200 t y' ->
  Forall (fun p => Exists (fun v : f64 => B2R v <> 0) (slice (elems t y) p)) (slices t) ->
  nearlyEquals t x' y' tol = nearlyEquals t x y tol.
Proof. exact nearly_scaled. Qed.
Print Assumptions C72_compare.
(** Without that it does. *)
Theorem C72_zero_grade :
  let o := f64_lit 0 0 in
  scaledv 2 TVec (Vec (f64_lit 1 0) o o) (Vec (f64_lit 4 0) o o) /\ scaledv 2 TVec (Vec o o o) (Vec o o o) /\
  nearlyEquals TVec (Vec (f64_lit 1 0) o o) (Vec o o o) (f64_lit 2 0) = true /\
  nearlyEquals TVec (Vec (f64_lit 4 0) o o) (Vec o o o) (f64_lit 2 0) = false.
Proof. exact zero_grade. Qed.
Print Assumptions C72_zero_grade.

(** Operands that meet the conditions: a vector and a spinor, times four. *)
Example C72_example :
  let x := Vec (f64_lit 3 0) (f64_lit 0 0) (f64_lit (-5) 0) in let x' := Vec (f64_lit 12 0) (f64_lit 0 0) (f64_lit (-20) 0) in
  let y := mkSpin (Sca (f64_lit 1 0)) (Biv (f64_lit 7 0) (f64_lit 0 0) (f64_lit 1 (-3))) in
  let y' := mkSpin (Sca (f64_lit 4 0)) (Biv (f64_lit 28 0) (f64_lit 0 0) (f64_lit 1 (-1))) in
  scaledv 2 TVec x x' /\ scaledv 2 TSpin y y' /\ betweenv 200 TVec x /\ betweenv 200 TVec x' /\ nonzero TVec x /\
  betweenv 200 TSpin y /\ betweenv 200 TSpin y' /\
  Forall (fun p => Exists (fun v : f64 => B2R v <> 0) (slice (elems TSpin y) p)) (slices TSpin).
Proof. exact scale_case. Qed.
