(** * Computed identities under the library's own comparison.

    Only statements; proofs are in AcceptFacts.v. *)

Require Import Reals ZArith List Bool Lra.
From Flocq Require Import Core BinarySingleNaN.
Require Import Verif.Num Verif.Types Verif.Priv Verif.OpsUni Verif.OpsMul Verif.Const
  Verif.Func Verif.Compare Verif.SpecCl Verif.SpecFunc Verif.B64 Verif.SpecRound Verif.SpecValid Verif.SpecCompare Verif.SpecScale
  Verif.ScaleThm Verif.AcceptFacts.
Import ListNotations.
Local Open Scope R_scope.

(** C76: [x * inverse(x)] and [inverse(x) * x] are nearly equal to one, at
    every tolerance from 2^-47 (32 times [epsilon]), for blades whose
    components are zero or between 2^-200 and 2^200 and not all zero. *)
Theorem C76_inverse :
  let accepted t inv := forall (x : val f64 t) tol, betweenv 200 t x -> nonzero t x ->
    is_finite tol = true -> bpow radix2 (-47) <= B2R tol ->
    nearlyEquals (mulTy t t) (mul t t x (inv x)) (one (mulTy t t)) tol = true /\
    nearlyEquals (mulTy t t) (mul t t (inv x) x) (one (mulTy t t)) tol = true in
  accepted TSca inverse_Sca /\ accepted TVec inverse_Vec /\ accepted TBiv inverse_Biv /\ accepted TTri inverse_Tri.
Proof. exact blades_accept. Qed.
Print Assumptions C76_inverse.

(** Magnitude times direction is nearly the value, for every type. *)
Theorem C76_direction : forall t (x : val f64 t) tol, t <> TDub -> betweenv 200 t x -> nonzero t x ->
  is_finite tol = true -> bpow radix2 (-47) <= B2R tol ->
  nearlyEquals t (scale t (magnitude t x) (direction t x)) x tol = true.
Proof. exact recompose_accept. Qed.
Print Assumptions C76_direction.

(** When the answer is yes, grade by grade: the grade of the reference is zero
    and no component exceeds [t'], or the squared distance is below
    [t'^2] times the squared length, less a margin for rounding; [t'] is any
    double below the tolerance. *)
Theorem C76_accepts : forall t (x y : val f64 t) (tol t' : f64), t <> TDub -> is_finite tol = true -> all_valid t x -> all_valid t y ->
  bpow radix2 (-60) <= B2R t' <= 1 -> B2R t' < B2R tol ->
  Forall (fun p => let g := slice (elems t x) p in let r := slice (elems t y) p in
    (Forall (fun v => B2R v = 0) r /\ Forall (fun v => Rabs (B2R v) <= B2R t') g) \/
    (bpow radix2 (-900) <= norm2 r <= bpow radix2 1000 /\
     dist2 g r <= (1 - bpow radix2 (-47)) * (B2R t' * B2R t') * norm2 r)) (slices t) ->
  nearlyEquals t x y tol = true.
Proof. exact object_accept. Qed.
Print Assumptions C76_accepts.

(** The documented condition, each component within a fraction of the
    reference component, is enough. *)
Theorem C76_components : forall t (x y : val f64 t) (tol t' : f64) c, t <> TDub -> betweenv 200 t x -> betweenv 200 t y ->
  is_finite tol = true -> bpow radix2 (-60) <= B2R t' <= 1 -> B2R t' < B2R tol ->
  0 <= c <= (1 - bpow radix2 (-47)) * B2R t' ->
  Forall2 (fun a b : f64 => Rabs (B2R a - B2R b) <= c * Rabs (B2R b)) (elems t x) (elems t y) ->
  nearlyEquals t x y tol = true.
Proof. exact components_accept. Qed.
Print Assumptions C76_components.
(** It is not what is tested: here the third component is twice the reference
    and accepted at 2^-40; on its own it is rejected at one half. *)
Theorem C76_components_refuted :
  let got := Vec (f64_lit 1 40) (f64_lit 1 40) (f64_lit 2 0) in let ref := Vec (f64_lit 1 40) (f64_lit 1 40) (f64_lit 1 0) in
  nearlyEquals TVec got ref (f64_lit 1 (-40)) = true /\
  nearlyEquals TDub (vec_2 got) (vec_2 ref) (f64_lit 1 (-1)) = false.
Proof. exact component_loose. Qed.
Print Assumptions C76_components_refuted.

(** The default tolerance is too small: (1, 1, 7), the scalar 31, and for the
    direction the vector [w1]. *)
Theorem C76_default_refuted :
  (betweenv 200 TVec u1 /\ nonzero TVec u1 /\
   nearlyEquals TSpin (mul TVec TVec u1 (inverse_Vec u1)) (one TSpin) lim_epsilon = false) /\
  (let x := Sca (f64_lit 31 0) in betweenv 200 TSca x /\ nonzero TSca x /\
   nearlyEquals TSca (mul TSca TSca x (inverse_Sca x)) (one TSca) lim_epsilon = false) /\
  (betweenv 200 TVec w1 /\ nonzero TVec w1 /\
   nearlyEquals TVec (scale TVec (magnitude TVec w1) (direction TVec w1)) w1 lim_epsilon = false).
Proof. exact default_reject. Qed.
Print Assumptions C76_default_refuted.

(** With the arguments swapped the rounding residue is the reference, and one
    is not near it at any tolerance up to 1: (1, 3, 5). *)
Theorem C76_swapped_refuted : betweenv 200 TVec x135 /\ nonzero TVec x135 /\
  forall tol : f64, is_finite tol = true -> B2R tol <= 1 ->
  nearlyEquals TSpin (one TSpin) (mul TVec TVec x135 (inverse_Vec x135)) tol = false.
Proof. exact swapped_reject. Qed.
Print Assumptions C76_swapped_refuted.

(** [(a * b) * c] and [a * (b * c)] are not nearly equal at any tolerance up
    to 1 for three vectors in one plane, with components between 0.1 and 0.7. *)
Theorem C76_associative_refuted : forall tol : f64, is_finite tol = true -> B2R tol <= 1 ->
  nearlyEquals TImsp (mul TSpin TVec (mul TVec TVec va vb) vc) (mul TVec TSpin va (mul TVec TVec vb vc)) tol = false.
Proof. exact assoc_reject. Qed.
Print Assumptions C76_associative_refuted.

(** Outside the range of components a residue below the normal numbers makes
    the product invalid: no tolerance accepts (3, 3 * 2^-500, 5 * 2^-500). *)
Theorem C76_range_refuted : all_valid TVec xsub /\
  forall tol, nearlyEquals TSpin (mul TVec TVec xsub (inverse_Vec xsub)) (one TSpin) tol = false.
Proof. exact subnormal_reject. Qed.
Print Assumptions C76_range_refuted.

(** A vector and a tolerance that meet the conditions: (1, 1, 7), rejected at
    [epsilon], accepted at the 64 [epsilon] the documentation suggests. *)
Example C76_example : betweenv 200 TVec u1 /\ nonzero TVec u1 /\
  is_finite (f64_lit 1 (-46)) = true /\ bpow radix2 (-47) <= B2R (f64_lit 1 (-46)).
Proof.
  split; [apply default_reject|]. split; [apply default_reject|]. split; [reflexivity|].
  rewrite (proj1 (proj2 (lit_val 1 (-46) ltac:(reflexivity) ltac:(split; discriminate)))), Rmult_1_l. apply bpow_le. discriminate.
Qed.
