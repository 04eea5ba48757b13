(** * C95: exponentials are the motions with constant angular velocity.

    Only statements; proofs are in MotionFacts.v. *)

Require Import Reals.
Require Import Verif.Num Verif.Types Verif.OpsMul Verif.Const Verif.Func Verif.SpecCl Verif.RealInst
  Verif.SpecFunc Verif.SpecGeom Verif.SpecMotion Verif.MotionFacts.
Local Open Scope R_scope.

(** C95: the exponentials of the multiples of [B] lie on a curve that changes by [B] times itself; vectors turned by it
    change by what [B] sweeps; and these are the only curves of spinors and of vectors that do so. *)
Theorem C95_motion : forall B : BiVector R, exists s : R -> Spinor R,
  (forall t, nontiny (scale TBiv t B) -> exp_Biv (exact TBiv (scale TBiv t B)) = exact TSpin (s t)) /\
  changes_by (fun t => den TSpin (s t)) (fun t => den _ (mul TBiv TSpin B (s t))) /\
  (forall v, changes_by (fun t => den TVec (rotate (s t) v)) (fun t => swept B (rotate (s t) v))) /\
  (forall q : R -> Spinor R, changes_by (fun t => den TSpin (q t)) (fun t => den _ (mul TBiv TSpin B (q t))) -> forall t, q t = mul TSpin TSpin (s t) (q 0)) /\
  (forall x : R -> Vector R, changes_by (fun t => den TVec (x t)) (fun t => swept B (x t)) -> forall t, x t = rotate (s t) (x 0)).
Proof. exact spin_motion. Qed.
Print Assumptions C95_motion.
(** The velocity is twice the cross product with the normal of the plane. *)
Theorem C95_velocity : forall (B : BiVector R) (v : Vector R), ceq (swept B v) (cscale 2 (den TVec (cross v (axis B)))).
Proof. exact swept_cross. Qed.
Print Assumptions C95_velocity.
(** e12 is not tiny, and moves e1 towards - e2. *)
Example C95_example : nontiny (scale TBiv 1 c_e12) /\ ceq (swept c_e12 c_e1) (cscale (-2) (den TVec (c_e2 : Vector R))).
Proof. exact motion_example. Qed.
