(** * C92: unit spinors are the rotations, two for each. *)

Require Import Reals ZArith Lra Lia.
Require Import Verif.Num Verif.Types Verif.OpsUni Verif.OpsAdd Verif.OpsSub Verif.OpsMul Verif.Const Verif.Func Verif.SpecCl Verif.SpecExp
  Verif.RealInst Verif.SpecFunc Verif.SpecCover Verif.CoverFacts Verif.CoverExp.
Local Open Scope R_scope.

(** C92: every unit spinor is a rotation, and every rotation is that of exactly
    two unit spinors. *)
Theorem C92_spinors_rotate : forall s, magSq TSpin s = 1 -> rotation (rotate s).
Proof. exact rotation_rotate. Qed.
Print Assumptions C92_spinors_rotate.
Theorem C92_two_spinors : forall f, rotation f -> exists s, magSq TSpin s = 1 /\ s <> neg TSpin s /\
  forall s', magSq TSpin s' = 1 -> ((forall v, rotate s' v = f v) <-> s' = s \/ s' = neg TSpin s).
Proof. exact rotation_exactly_two. Qed.
Print Assumptions C92_two_spinors.
(** Every rotation is the exponential of half a bivector angle of at most half a
    turn, and exp(BiVector) computes it. *)
Theorem C92_exponentials : forall f, rotation f -> exists (B : BiVector R) s, cnorm (den TBiv B) <= PI /\ magSq TSpin s = 1 /\ (forall v, f v = rotate s v) /\
  is_cexp (den TBiv (scale TBiv (1 / 2) B)) (den TSpin s) /\ (nontiny (scale TBiv (1 / 2) B) -> exp_Biv (exact TBiv (scale TBiv (1 / 2) B)) = exact TSpin s).
Proof. exact rotation_exponential. Qed.
Print Assumptions C92_exponentials.
(** Every map that keeps distances is a unit spinor's rotation, or its negative,
    followed by a shift; and these keep distances. *)
Theorem C92_motions : forall f, isometry f -> exists s t, magSq TSpin s = 1 /\
  ((forall v, f v = add_Vec_Vec (rotate s v) t) \/ (forall v, f v = sub TVec TVec t (rotate s v))).
Proof. exact isometry_motion. Qed.
Print Assumptions C92_motions.
Theorem C92_motions_keep_distances : forall s t, magSq TSpin s = 1 ->
  isometry (fun v => add_Vec_Vec (rotate s v) t) /\ isometry (fun v => sub TVec TVec t (rotate s v)).
Proof. exact motion_isometry. Qed.
Print Assumptions C92_motions_keep_distances.
(** The exchange of the axes in a cycle is the rotation of
    (1 + e23 + e31 + e12) / 2; a mirror with a shift keeps distances. *)
Example C92_example : rotation cycle /\ isometry mirror_shift /\ magSq TSpin (mkSpin (Sca (1 / 2)) (Biv (1 / 2) (1 / 2) (1 / 2))) = 1 /\
  forall v, rotate (mkSpin (Sca (1 / 2)) (Biv (1 / 2) (1 / 2) (1 / 2))) v = cycle v.
Proof. exact cover_example. Qed.
