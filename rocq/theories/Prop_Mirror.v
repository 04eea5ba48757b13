(** * Reflections in the coordinate planes and negation, on binary64.

    Only statements; proofs are in MirrorFacts.v and MirrorThm.v. *)

Require Import ZArith List Bool.
From Flocq Require Import BinarySingleNaN.
Require Import Verif.Num Verif.Types Verif.Priv Verif.OpsUni Verif.OpsAdd Verif.OpsSub Verif.OpsMul Verif.Const
  Verif.Validity Verif.Compare Verif.Func Verif.SpecCl Verif.Rel Verif.B64 Verif.SpecSame Verif.SpecMirror Verif.MirrorFacts Verif.MirrorThm Verif.MirrorCmp.
Import ListNotations.

(** C66: rounding respects signs.  Products of reflected operands are the
    reflected products; negated operands negate them.  No rounding error, only
    the sign of a zero may differ. *)
Theorem C66_product : forall r1 r2 r3 c c' a b (x x' : val f64 a) (y y' : val f64 b),
  mirrored (mirror c r1 r2 r3) a x x' -> mirrored (mirror c' r1 r2 r3) b y y' ->
  mirrored (mirror (xorb c c') r1 r2 r3) (mulTy a b) (mul a b x y) (mul a b x' y').
Proof. exact mul_mirror. Qed.
Print Assumptions C66_product.
(** Sums and differences respect any choice of signs for the blades. *)
Theorem C66_sum : forall s a b (x x' : val f64 a) (y y' : val f64 b),
  mirrored s a x x' -> mirrored s b y y' ->
  mirroredo s (addTy a b) (add a b x y) (add a b x' y') /\ mirroredo s (subTy a b) (sub a b x y) (sub a b x' y').
Proof. exact addsub_mirror. Qed.
Print Assumptions C66_sum.
Theorem C66_involutions : forall s t (x x' : val f64 t), mirrored s t x x' ->
  mirrored s t (neg t x) (neg t x') /\
  mirrored s t (reverse t x) (reverse t x') /\
  mirrored s t (oddverse t x) (oddverse t x') /\
  mirrored s t (dirverse t x) (dirverse t x') /\
  mirrored (fun k => s (complement k)) (dualTy t) (dual t x) (dual t x') /\
  mirrored s TMvec (to_mv t x) (to_mv t x').
Proof. exact uni_mirror. Qed.
Print Assumptions C66_involutions.
(** Magnitudes and validity do not change at all. *)
Theorem C66_magnitude : forall s t (x x' : val f64 t), mirrored s t x x' -> magSq t x = magSq t x' /\ magnitude t x = magnitude t x'.
Proof. exact magSq_mirror. Qed.
Print Assumptions C66_magnitude.
Theorem C66_validity : forall s t (x x' : val f64 t), mirrored s t x x' -> isValid t x = isValid t x'.
Proof. exact valid_mirror. Qed.
Print Assumptions C66_validity.
Theorem C66_direction : forall s t (x x' : val f64 t), t <> TMvec -> mirrored s t x x' -> mirrored s t (direction t x) (direction t x').
Proof. exact direction_mirror. Qed.
Print Assumptions C66_direction.
Theorem C66_inverse : forall s,
  (forall x x' : Scalar f64, mirrored s TSca x x' -> mirrored s TSca (inverse_Sca x) (inverse_Sca x')) /\
  (forall x x' : Vector f64, mirrored s TVec x x' -> mirrored s TVec (inverse_Vec x) (inverse_Vec x')) /\
  (forall x x' : BiVector f64, mirrored s TBiv x x' -> mirrored s TBiv (inverse_Biv x) (inverse_Biv x')) /\
  (forall x x' : TriVector f64, mirrored s TTri x x' -> mirrored s TTri (inverse_Tri x) (inverse_Tri x')).
Proof. exact inverse_mirror. Qed.
Print Assumptions C66_inverse.
(** Whatever the mathematical library returns: exponential, logarithm and
    square root of spinors respect signs of the bivector components. *)
Theorem C66_functions : forall s (L : Libm f64), s bS = false ->
  forall (x x' : Spinor f64) (p p' : BiVector f64), image s TSpin x x' -> image s TBiv p p' ->
  mirrored s TSpin (exp_Spin x) (exp_Spin x') /\ mirrored s TSpin (logG2 x p) (logG2 x' p') /\ mirrored s TSpin (sqrtG2 x p) (sqrtG2 x' p').
Proof. exact spin_functions_mirror. Qed.
Print Assumptions C66_functions.
(** In particular the exponential of the reverse is the reverse of the
    exponential: the rotor of the opposite angle is exactly the conjugate. *)
Theorem C66_reverse : forall (L : Libm f64) (x : Spinor f64),
  samev TSpin (reverse TSpin (exp_Spin x)) (exp_Spin (reverse TSpin x)).
Proof. exact exp_reverse. Qed.
Print Assumptions C66_reverse.
(** Comparisons do not notice a change of signs made in both operands. *)
Theorem C66_comparison : forall s t (x x' y y' : val f64 t), mirrored s t x x' -> mirrored s t y y' ->
  (forall tol, nearlyEquals t x y tol = nearlyEquals t x' y' tol) /\ (forall f, eqeq t = Some f -> f x y = f x' y').
Proof. intros s t x x' y y' A B. exact (conj (fun tol => nearly_mirror s t x x' y y' tol A B) (fun f E => eqeq_mirror s t f x x' y y' E A B)). Qed.
Print Assumptions C66_comparison.
Example C66_example_comparison : (* both answers occur *)
  let o := f64_lit 1 0 in
  nearlyEquals TVec (Vec o (Bopp o) o) (Vec o (Bopp o) o) (f64_lit 1 (-40)) = true /\
  nearlyEquals TVec (Vec o o o) (Vec o (Bopp o) o) (f64_lit 1 (-40)) = false.
Proof. split; vm_compute; reflexivity. Qed.
Example C66_example : (* reflected in e1, the second negated besides; both products round *)
  let third := Bdiv mode_NE (f64_lit 1 0) (f64_lit 3 0) : f64 in
  let x := Vec third (f64_lit 5 0) third in let x' := Vec (Bopp third) (f64_lit 5 0) third in
  let y := Biv third third (f64_lit 7 0) in let y' := Biv (Bopp third) third (f64_lit 7 0) in
  image (mirror false true false false) TVec x x' /\ image (mirror true true false false) TBiv y y' /\
  image (mirror true true false false) (mulTy TVec TBiv) (mul TVec TBiv x y) (mul TVec TBiv x' y') /\
  Bltb (B754_zero false) (magSq TVec x) = true.
Proof.
  assert (K : forall l m : list f64, map (fun b : f64 => B2SF b) l = map (fun b : f64 => B2SF b) m -> l = m).
  { induction l as [|u l IH]; intros [|w m] E; try discriminate; [reflexivity|]. inversion E. f_equal; [apply B2SF_inj; assumption|apply IH; assumption]. }
  cbv zeta. repeat apply conj; try (apply K); vm_compute; reflexivity.
Qed.
Example C66_example_reflection_needed : (* signs that belong to no reflection are not respected by products *)
  ~ (forall (x x' y y' : val f64 TVec), mirrored (fun k => in1 k && in2 k) TVec x x' -> mirrored (fun k => in1 k && in2 k) TVec y y' ->
      mirrored (fun k => in1 k && in2 k) (mulTy TVec TVec) (mul TVec TVec x y) (mul TVec TVec x' y')).
Proof.
  intros H. pose (o := f64_lit 1 0). pose (z := f64_lit 0 0).
  specialize (H (Vec o z z) (Vec o z z) (Vec z o z) (Vec z o z)).
  assert (R : forall v : Vector f64, mirrored (fun k => in1 k && in2 k) TVec v v) by
    (intros v; unfold mirrored; dvs; repeat (apply Forall2_cons; [left; reflexivity|]); apply Forall2_nil).
  specialize (H (R _) (R _)). inversion H as [|? ? ? ? _ T]; subst. inversion T as [|? ? ? ? _ T2]; subst.
  inversion T2 as [|? ? ? ? _ T3]; subst. inversion T3 as [|? ? ? ? E _]; subst.
  destruct E as [E|(s1 & s2 & E & _)]; apply (f_equal (fun b : f64 => B2SF b)) in E; vm_compute in E; discriminate.
Qed.
