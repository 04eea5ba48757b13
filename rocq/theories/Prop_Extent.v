(** * C80: lengths and directions never overshoot, in binary64. *)

Require Import Reals ZArith List Lra Lia.
From Flocq Require Import Core BinarySingleNaN.
Require Import Verif.Num Verif.Types Verif.Priv Verif.OpsMul Verif.Const Verif.Func
  Verif.B64 Verif.SpecRound Verif.ErrFacts Verif.SpecExtent Verif.ExtentFacts.
Import ListNotations.
Local Open Scope R_scope.

(** Growing any component in size never makes the computed length smaller. *)
Theorem C80_monotone : forall t (x y : val f64 t), all_finite t x -> all_finite t y -> dominated t x y ->
  is_finite (magnitude t y) = true ->
  is_finite (magnitude t x) = true /\ B2R (magnitude t x) <= B2R (magnitude t y).
Proof. exact magnitude_mono. Qed.
Print Assumptions C80_monotone.

(** The computed length is at least the size of every component. *)
Theorem C80_covers : forall t (x : val f64 t), all_finite t x -> reaches (-510) t x -> is_finite (magnitude t x) = true ->
  Forall (fun v : f64 => Rabs (B2R v) <= B2R (magnitude t x)) (elems t x).
Proof. intros t x F E G. exact (proj2 (magnitude_covers t x F E G)). Qed.
Print Assumptions C80_covers.

(** Every component of the computed direction lies between -1 and 1, whether or not the square of the length overflows. *)
Theorem C80_box : forall t (x : val f64 t), all_finite t x -> reaches (-510) t x -> in_box t (direction t x).
Proof. exact direction_box. Qed.
Print Assumptions C80_box.

(** The length of an element along one basis blade is computed without error. *)
Theorem C80_axis : forall t (x : val f64 t) i v, on_axis t x i v -> is_finite v = true ->
  bpow radix2 (-510) <= Rabs (B2R v) <= bpow radix2 511 ->
  is_finite (magnitude t x) = true /\ B2R (magnitude t x) = Rabs (B2R v).
Proof. exact magnitude_axis. Qed.
Print Assumptions C80_axis.

(** The direction of an element along one basis blade need not be that blade. *)
Theorem C80_unit_refuted : exists (x : Vector f64) v, on_axis TVec x 0 v /\ B2R v = 49 /\ B2R (vec_0 (direction TVec x)) < 1.
Proof. exact axis_short. Qed.
Print Assumptions C80_unit_refuted.

(** The scalar part of the product of two computed directions need not be a cosine. *)
Theorem C80_cosine_refuted : exists x : Vector f64, all_finite TVec x /\ reaches 0 TVec x /\
  1 < B2R (sca_0 (spinSca (mul_Vec_Vec (direction TVec x) (direction TVec x)))).
Proof. exact cosine_over. Qed.
Print Assumptions C80_cosine_refuted.

(** Below the range of the theorems a component can exceed 1 and the length of its element. *)
Theorem C80_small_refuted : exists x : Vector f64, all_finite TVec x /\ reaches (-537) TVec x /\
  B2R (magnitude TVec x) < B2R (vec_0 x) /\ 1 < B2R (vec_0 (direction TVec x)).
Proof. exact small_over. Qed.
Print Assumptions C80_small_refuted.

(** A multivector of mixed size meets the hypotheses. *)
Example C80_example :
  all_finite TMvec extent_case /\ reaches (-510) TMvec extent_case /\ is_finite (magnitude TMvec extent_case) = true /\
  on_axis TBiv (Biv (f64_lit 0 0) (f64_lit (-7) 300) (f64_lit 0 0)) 1 (f64_lit (-7) 300) /\
  dominated TVec (Vec (f64_lit 1 0) (f64_lit (-2) 0) (f64_lit 2 0)) (Vec (f64_lit (-2) 0) (f64_lit 3 0) (f64_lit 2 0)).
Proof. exact extent_case_ok. Qed.
