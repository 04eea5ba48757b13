(** * C81: results the library calls valid, in binary64. *)

Require Import Reals ZArith List Lra Lia.
From Flocq Require Import Core BinarySingleNaN.
Require Import Verif.Num Verif.Types Verif.Priv Verif.OpsUni Verif.OpsAdd Verif.OpsSub Verif.OpsMul Verif.Const Verif.Validity Verif.Func
  Verif.B64 Verif.SpecCl Verif.SpecValid Verif.SpecRound Verif.SpecProg Verif.SpecAcc Verif.SpecExtent Verif.SpecGrain Verif.GrainFacts.
Import ListNotations.
Local Open Scope R_scope.

(** A whole calculation: leaves of bounded size on a grid that stays above the smallest normal number give a valid value. *)
Theorem C81_program : forall e g p v, (0 <= e)%Z -> (g <= 0)%Z -> every_leaf (fun t x => within e t x /\ on_grid g t x) p ->
  (exponent_bound e p <= 1023)%Z -> (-1022 <= grid_bound g p)%Z -> eval p = Some v ->
  all_valid (projT1 v) (projT2 v) /\ isValid (projT1 v) (projT2 v) = true.
Proof. intros e g p v He Hg H B C E. exact (prog_valid e g p v He Hg H B C E). Qed.
Print Assumptions C81_program.

(** Products: components zero or from [2^-485] to [2^485]. *)
Theorem C81_product : forall a s t (x : val f64 s) (y : val f64 t), (0 <= a <= 485)%Z -> sized a s x -> sized a t y ->
  all_valid (mulTy s t) (mul s t x y) /\ isValid (mulTy s t) (mul s t x y) = true.
Proof. intros a s t x y Ha Hx Hy. exact (mul_fine a s t x y Ha Hx Hy). Qed.
Print Assumptions C81_product.

(** Sums and differences: components zero or from [2^-970] to [2^970]. *)
Theorem C81_sums : forall a s t (x : val f64 s) (y : val f64 t), (0 <= a <= 970)%Z -> sized a s x -> sized a t y ->
  if_exists (fun u r => all_valid u r /\ isValid u r = true) (addTy s t) (add s t x y) /\
  if_exists (fun u r => all_valid u r /\ isValid u r = true) (subTy s t) (sub s t x y).
Proof. exact sums_valid. Qed.
Print Assumptions C81_sums.

(** Squared lengths and lengths. *)
Theorem C81_length : forall a t (x : val f64 t), (0 <= a <= 510)%Z -> sized a t x ->
  all_valid TDub (magSq t x) /\ isValid TDub (magSq t x) = true /\ all_valid TDub (magnitude t x) /\ isValid TDub (magnitude t x) = true.
Proof. intros a t x Ha S. destruct (magSq_fine a t x Ha S); split; [assumption|]; split; [assumption|]. exact (magnitude_fine a t x Ha S). Qed.
Print Assumptions C81_length.

(** Directions of elements that are not zero. *)
Theorem C81_direction : forall a t (x : val f64 t), (0 <= a <= 510)%Z -> sized a t x -> reaches (- a) t x ->
  all_valid t (direction t x) /\ isValid t (direction t x) = true.
Proof. intros a t x Ha S E. exact (direction_fine a t x Ha S E). Qed.
Print Assumptions C81_direction.

(** Inverses of blades that are not zero. *)
Theorem C81_inverse : forall a, (0 <= a <= 339)%Z ->
  (forall x : Scalar f64, sized a TSca x -> reaches (- a) TSca x -> all_valid TSca (inverse_Sca x) /\ isValid TSca (inverse_Sca x) = true) /\
  (forall x : Vector f64, sized a TVec x -> reaches (- a) TVec x -> all_valid TVec (inverse_Vec x) /\ isValid TVec (inverse_Vec x) = true) /\
  (forall x : BiVector f64, sized a TBiv x -> reaches (- a) TBiv x -> all_valid TBiv (inverse_Biv x) /\ isValid TBiv (inverse_Biv x) = true) /\
  (forall x : TriVector f64, sized a TTri x -> reaches (- a) TTri x -> all_valid TTri (inverse_Tri x) /\ isValid TTri (inverse_Tri x) = true).
Proof. exact inverses_valid. Qed.
Print Assumptions C81_inverse.

(** One size further out the product of two vectors can be invalid. *)
Theorem C81_product_refuted : exists x y : Vector f64, sized 486 TVec x /\ sized 486 TVec y /\ isValid TSpin (mul TVec TVec x y) = false.
Proof. exact far_product. Qed.
Print Assumptions C81_product_refuted.

(** One size further out the difference of two valid scalars can be invalid, although it is computed without error. *)
Theorem C81_difference_refuted : exists x y : Scalar f64, sized 971 TSca x /\ sized 971 TSca y /\ isValid TSca x = true /\ isValid TSca y = true /\
  B2R (sca_0 (sub TSca TSca x y)) = B2R (sca_0 x) - B2R (sca_0 y) /\ isValid TSca (sub TSca TSca x y) = false.
Proof. exact far_difference. Qed.
Print Assumptions C81_difference_refuted.

(** Two sizes further out the inverse of a vector can be invalid. *)
Theorem C81_inverse_refuted : exists x : Vector f64, sized 341 TVec x /\ reaches (-341) TVec x /\ isValid TVec (inverse_Vec x) = false.
Proof. exact far_inverse. Qed.
Print Assumptions C81_inverse_refuted.

(** A spinor and a vector of mixed size, and the sandwich built from them, meet the hypotheses. *)
Example C81_example :
  sized 339 TSpin grain_spin /\ reaches (-339) TSpin grain_spin /\ sized 339 TVec grain_vec /\ reaches (-339) TVec grain_vec /\
  every_leaf (fun t x => within 10 t x /\ on_grid (-10) t x) grain_prog /\ (exponent_bound 10 grain_prog <= 1023)%Z /\
  (-1022 <= grid_bound (-10) grain_prog)%Z /\ (exists v, eval grain_prog = Some v /\ projT1 v = TImsp).
Proof. exact grain_case_ok. Qed.
