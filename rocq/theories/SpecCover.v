(** * Specification: rotations of space as maps. *)

Require Import Reals.
Require Import Verif.Num Verif.Types Verif.RealInst Verif.SpecFunc.
Local Open Scope R_scope.

(** A map of vectors that keeps lengths and angles, and the orientation.
    Nothing else is asked of it: neither linearity nor continuity. *)
Definition rotation (f : Vector R -> Vector R) : Prop :=
  (forall u v, dot (f u) (f v) = dot u v) /\ (forall u v w, det3 (f u) (f v) (f w) = det3 u v w).
Definition difference (u v : Vector R) : Vector R := Vec (vec_0 u - vec_0 v) (vec_1 u - vec_1 v) (vec_2 u - vec_2 v).
(** A map of points that keeps distances. *)
Definition isometry (f : Vector R -> Vector R) : Prop :=
  forall u v, dot (difference (f u) (f v)) (difference (f u) (f v)) = dot (difference u v) (difference u v).
