(** * Validity, null objects and NaN on binary64 numbers.

    Only statements; proofs are in ValidFacts.v and NullFacts.v.  Numbers are
    IEEE binary64 ([f64], B64.v); [L : Libm f64] is an arbitrary math library. *)

Require Import Reals ZArith List Bool.
From Flocq Require Import Core BinarySingleNaN.
Require Import Verif.Num Verif.Types Verif.Priv Verif.OpsUni Verif.OpsAdd Verif.OpsSub
  Verif.OpsMul Verif.Const Verif.Validity Verif.Compare Verif.Func Verif.B64 Verif.SpecCl
  Verif.SpecValid Verif.Taint Verif.ValidFacts Verif.NullFacts Verif.ValidThm.
Import ListNotations.
Local Open Scope R_scope.

(** C29 *)
Theorem C29_null_invalid : forall t, isValid t (null t : val f64 t) = false.
Proof. exact (fun t => proj1 (null_uni t)). Qed.
Print Assumptions C29_null_invalid.
Theorem C29_constants_valid : forall t,
  isValid t (zero t : val f64 t) = true /\ isValid t (one t : val f64 t) = true.
Proof. exact zero_one_valid. Qed.
Print Assumptions C29_constants_valid.
Theorem C29_basis_valid :
  isValid TSca (c_e0 : Scalar f64) = true /\
  isValid TVec (c_e1 : Vector f64) = true /\ isValid TVec (c_e2 : Vector f64) = true /\
  isValid TVec (c_e3 : Vector f64) = true /\
  isValid TBiv (c_e23 : BiVector f64) = true /\ isValid TBiv (c_e31 : BiVector f64) = true /\
  isValid TBiv (c_e12 : BiVector f64) = true /\ isValid TTri (c_e123 : TriVector f64) = true.
Proof. exact basis_valid. Qed.
Print Assumptions C29_basis_valid.
(** "Every component of null is NaN", full statement; false of MultiVector,
    whose null has seven zero components. *)
Theorem C29_all_nan_refuted : ~ (forall t, all_nan t (null t : val f64 t)).
Proof. exact null_all_nan_refuted. Qed.
Print Assumptions C29_all_nan_refuted.
Theorem C29_null_multivector :
  elems TMvec (null TMvec : MultiVector f64) =
  (B754_nan : f64) :: repeat (B754_zero false : f64) 7.
Proof. exact null_Mvec_elems. Qed.
Print Assumptions C29_null_multivector.
(** The other types; missing is only MultiVector. *)
Theorem C29_all_nan_partial : forall t, t <> TMvec -> all_nan t (null t : val f64 t).
Proof. exact null_all_nan. Qed.
Print Assumptions C29_all_nan_partial.
Theorem C29_null_never_nearly_equal : forall t (y : val f64 t) tol,
  nearlyEquals t (null t) y tol = false /\ nearlyEquals t y (null t) tol = false.
Proof. exact null_never_near. Qed.
Print Assumptions C29_null_never_nearly_equal.
Theorem C29_null_never_equal : forall t f (y : val f64 t), eqeq t = Some f ->
  f (null t) y = false /\ f y (null t) = false.
Proof. exact null_never_equal. Qed.
Print Assumptions C29_null_never_equal.
Example C29_example : exists f, eqeq TVec = Some f /\
  f (null TVec) (Vec B754_nan B754_nan B754_nan : Vector f64) = false /\
  nearlyEquals TVec (null TVec) (null TVec) (f64_lit 1 1000) = false /\ TVec <> TMvec.
Proof. eexists; split; [reflexivity|]; repeat split; try reflexivity; discriminate. Qed.

(** C30 *)
Theorem C30_valid_double : forall x : f64, isValid TDub x = true <-> valid_number x.
Proof. exact isValid_number. Qed.
Print Assumptions C30_valid_double.
Theorem C30_sign_changes_keep_validity : forall t (x : val f64 t),
  isValid t (neg t x) = isValid t x /\ isValid t (reverse t x) = isValid t x /\
  isValid t (oddverse t x) = isValid t x /\ isValid t (dirverse t x) = isValid t x /\
  isValid (dualTy t) (dual t x) = isValid t x.
Proof. exact isValid_signs. Qed.
Print Assumptions C30_sign_changes_keep_validity.
Example C30_example : (* smallest normal number valid, its half not *)
  isValid TDub (f64_lit 1 (-1022)) = true /\ isValid TDub (f64_lit 1 (-1023)) = false.
Proof. split; vm_compute; reflexivity. Qed.

(** C31, full statement; false of the code. *)
Theorem C31_refuted : ~ (forall t (x : val f64 t), isValid t x = true <-> all_valid t x).
Proof. exact isValid_refuted. Qed.
Print Assumptions C31_refuted.
(** What is checked: the first component of each grade. *)
Theorem C31_what_is_checked : forall t (x : val f64 t),
  isValid t x = true <->
  Forall (fun i => valid_number (nth i (elems t x) B754_nan)) (first_of_grade t).
Proof. exact isValid_first. Qed.
Print Assumptions C31_what_is_checked.
(** No false alarm for any type. *)
Theorem C31_valid_accepted : forall t (x : val f64 t), all_valid t x -> isValid t x = true.
Proof. exact all_valid_isValid. Qed.
Print Assumptions C31_valid_accepted.
(** Exact for types of one component per grade; missing are those with a
    Vector or BiVector part. *)
Theorem C31_partial : forall t (x : val f64 t),
  t = TDub \/ t = TSca \/ t = TTri \/ t = TCplx -> (isValid t x = true <-> all_valid t x).
Proof. exact isValid_all_single. Qed.
Print Assumptions C31_partial.
Example C31_example :
  isValid TVec (Vec (f64_lit 1 0) B754_nan (B754_infinity false) : Vector f64) = true /\
  isValid TVec (Vec B754_nan (f64_lit 1 0) (f64_lit 1 0) : Vector f64) = false /\
  isValid TCplx (mkCplx (Sca (f64_lit 1 0)) (Tri B754_nan) : ComPlex f64) = false.
Proof. repeat split; vm_compute; reflexivity. Qed.

(** C32 *)
Theorem C32_product : forall a b (x : val f64 a) (y : val f64 b),
  isValid (mulTy a b) (mul a b (null a) y) = false /\
  isValid (mulTy a b) (mul a b x (null b)) = false.
Proof. exact (fun a b x y => conj (null_mul_l a b y) (null_mul_r a b x)). Qed.
Print Assumptions C32_product.
Theorem C32_sum : forall a b (x : val f64 a) (y : val f64 b),
  if_exists (fun t r => isValid t r = false) (addTy a b) (add a b (null a) y) /\
  if_exists (fun t r => isValid t r = false) (addTy a b) (add a b x (null b)).
Proof. exact (fun a b x y => conj (null_add_l a b y) (null_add_r a b x)). Qed.
Print Assumptions C32_sum.
Theorem C32_difference : forall a b (x : val f64 a) (y : val f64 b),
  if_exists (fun t r => isValid t r = false) (subTy a b) (sub a b (null a) y) /\
  if_exists (fun t r => isValid t r = false) (subTy a b) (sub a b x (null b)).
Proof. exact (fun a b x y => conj (null_sub_l a b y) (null_sub_r a b x)). Qed.
Print Assumptions C32_difference.
Theorem C32_unary : forall t,
  isValid t (null t : val f64 t) = false /\
  isValid t (neg t (null t : val f64 t)) = false /\
  isValid t (reverse t (null t : val f64 t)) = false /\
  isValid t (oddverse t (null t : val f64 t)) = false /\
  isValid t (dirverse t (null t : val f64 t)) = false /\
  isValid (dualTy t) (dual t (null t : val f64 t)) = false /\
  isValid_Dub (magSq t (null t : val f64 t)) = false.
Proof. exact null_uni. Qed.
Print Assumptions C32_unary.
Theorem C32_inverse :
  isValid TSca (inverse_Sca (null_Sca : Scalar f64)) = false /\
  isValid TVec (inverse_Vec (null_Vec : Vector f64)) = false /\
  isValid TBiv (inverse_Biv (null_Biv : BiVector f64)) = false /\
  isValid TTri (inverse_Tri (null_Tri : TriVector f64)) = false /\
  (forall L : Libm f64, cmul_keeps_nan L ->
     isValid TCplx (inverse_Cplx (null_Cplx : ComPlex f64)) = false /\
     isValid TMvec (inverse_Mvec (null_Mvec : MultiVector f64)) = false).
Proof. exact null_inverse. Qed.
Print Assumptions C32_inverse.
(** Stronger: a single NaN, or a single infinity or NaN, anywhere in an operand
    leaves a trace in the result of every operator. *)
Theorem C32_nan_is_never_lost : forall a b (x : val f64 a) (y : val f64 b),
  has_nan a x \/ has_nan b y ->
  has_nan (mulTy a b) (mul a b x y) /\
  if_exists has_nan (addTy a b) (add a b x y) /\
  if_exists has_nan (subTy a b) (sub a b x y).
Proof. exact nan_kept. Qed.
Print Assumptions C32_nan_is_never_lost.
Theorem C32_nonfinite_is_never_lost : forall a b (x : val f64 a) (y : val f64 b),
  has_nonfinite a x \/ has_nonfinite b y ->
  has_nonfinite (mulTy a b) (mul a b x y) /\
  if_exists has_nonfinite (addTy a b) (add a b x y) /\
  if_exists has_nonfinite (subTy a b) (sub a b x y).
Proof. exact nonfinite_kept. Qed.
Print Assumptions C32_nonfinite_is_never_lost.
Theorem C32_magSq_keeps_nan : forall t (x : val f64 t), has_nan t x -> is_nan (magSq t x) = true.
Proof. exact (keep_magSq is_nan spoils_nan). Qed.
Print Assumptions C32_magSq_keeps_nan.
Example C32_example : (* 0 * NaN is still seen *)
  isValid TMvec (mul TMvec TTri (null TMvec : MultiVector f64) (Tri (B754_zero false : f64))) = false.
Proof. reflexivity. Qed.

(** C33, full statement for exp(BiVector); false of the code. *)
Theorem C33_exp_bivector_refuted :
  ~ (forall (L : Libm f64) (b : BiVector f64), has_nan TBiv b -> isValid TSpin (exp_Biv b) = false).
Proof. exact exp_Biv_refuted. Qed.
Print Assumptions C33_exp_bivector_refuted.
(** Exactly: with a NaN behind a valid first component the answer is the
    spinor 1, whatever the other components and the math library. *)
Theorem C33_exp_bivector_hidden_nan : forall (L : Libm f64) (x y z : f64),
  valid_number x -> is_nan y = true \/ is_nan z = true ->
  exp_Biv (Biv x y z) = one TSpin.
Proof. exact @exp_Biv_hidden. Qed.
Print Assumptions C33_exp_bivector_hidden_nan.
(** NaN in the first component; missing are the other two. *)
Theorem C33_exp_bivector_partial : forall (L : Libm f64) (b : BiVector f64),
  is_nan (biv_0 b) = true -> exp_Biv b = null TSpin.
Proof. exact @exp_Biv_first. Qed.
Print Assumptions C33_exp_bivector_partial.
Theorem C33_exp_spinor_partial : forall L : Libm f64, exp_keeps_nan L -> forall s : Spinor f64,
  is_nan (sca_0 (spinSca s)) = true \/ is_nan (biv_0 (spinBiv s)) = true ->
  isValid TSpin (exp_Spin s) = false.
Proof. exact exp_Spin_nan. Qed.
Print Assumptions C33_exp_spinor_partial.
Theorem C33_exp_multivector : forall L : Libm f64, cos_keeps_nan L -> forall m : MultiVector f64,
  has_nan TMvec m -> isValid TMvec (exp_Mvec m) = false.
Proof. exact @exp_Mvec_nan. Qed.
Print Assumptions C33_exp_multivector.
Theorem C33_log : forall (L : Libm f64) (s : Spinor f64) plane, has_nan TSpin s ->
  isValid TSpin (logG2 s plane) = false.
Proof. exact logG2_invalid. Qed.
Print Assumptions C33_log.
Theorem C33_sqrt : forall (L : Libm f64) (s : Spinor f64) plane, has_nan TSpin s ->
  isValid TSpin (sqrtG2 s plane) = false.
Proof. exact @sqrtG2_nan. Qed.
Print Assumptions C33_sqrt.
Theorem C33_direction : forall t (x : val f64 t), has_nan t x -> isValid t (direction t x) = false.
Proof. exact direction_nan. Qed.
Print Assumptions C33_direction.
Theorem C33_inverse :
  (forall x : Scalar f64, has_nan TSca x -> isValid TSca (inverse_Sca x) = false) /\
  (forall x : Vector f64, has_nan TVec x -> isValid TVec (inverse_Vec x) = false) /\
  (forall x : BiVector f64, has_nan TBiv x -> isValid TBiv (inverse_Biv x) = false) /\
  (forall x : TriVector f64, has_nan TTri x -> isValid TTri (inverse_Tri x) = false) /\
  (forall L : Libm f64, cmul_keeps_nan L ->
     (forall x : ComPlex f64, has_nan TCplx x -> isValid TCplx (inverse_Cplx x) = false) /\
     (forall x : MultiVector f64, has_nan TMvec x -> isValid TMvec (inverse_Mvec x) = false)).
Proof. exact inverse_nan. Qed.
Print Assumptions C33_inverse.
(** The assumptions on the library are met, for instance by this one. *)
Example C33_library_exists : exists L : Libm f64,
  cmul_keeps_nan L /\ exp_keeps_nan L /\ cos_keeps_nan L.
Proof. exact some_library. Qed.
Example C33_example : forall L : Libm f64,
  exp_Biv (Biv (f64_lit 1 0) B754_nan (B754_zero false)) = one TSpin /\
  isValid TVec (direction TVec (Vec (f64_lit 1 0) B754_nan (f64_lit 2 0))) = false.
Proof. exact hidden_example. Qed.

(** C14, the zero branch on binary64: for every combination of signs of zero. *)
Theorem C14_zero_binary64 : forall s1 s2 s3 : bool,
  all_nan TSca (inverse_Sca (Sca (B754_zero s1 : f64))) /\
  all_nan TVec (inverse_Vec (Vec (B754_zero s1 : f64) (B754_zero s2) (B754_zero s3))) /\
  all_nan TBiv (inverse_Biv (Biv (B754_zero s1 : f64) (B754_zero s2) (B754_zero s3))) /\
  all_nan TTri (inverse_Tri (Tri (B754_zero s1 : f64))).
Proof. exact inverse_zero_nan. Qed.
Print Assumptions C14_zero_binary64.
(** C16 on binary64: the direction of a vector so long that its squared length
    overflows is the valid vector 0, that of a short one is null. *)
Theorem C16_direction_refuted_binary64 :
  direction TVec (Vec (f64_lit 1 600) (B754_zero false) (B754_zero false))
    = Vec (B754_zero false) (B754_zero false) (B754_zero false) /\
  direction TVec (Vec (f64_lit 1 (-600)) (B754_zero false) (B754_zero false)) = null TVec.
Proof. exact direction_extremes. Qed.
Print Assumptions C16_direction_refuted_binary64.
