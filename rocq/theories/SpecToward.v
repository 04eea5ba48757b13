(** * Specification vocabulary: turning one vector into another. *)

Require Import Reals.
Require Import Verif.Num Verif.Types Verif.OpsMul Verif.Func Verif.SpecCl Verif.SpecFunc Verif.SpecGeom.
Local Open Scope R_scope.

(** The client expression [sqrtG2(b * a, plane)]: g3opsMul_Vector.hpp,
    g3func.hpp:771-795. *)
Definition turner {F : Type} `{Arith F} `{Libm F} (a b : Vector F) (plane : BiVector F) : Spinor F :=
  sqrtG2 (mul TVec TVec b a) plane.

(** [s] turns [a] into the direction of [b] with [|s|^2 = |a||b|]. *)
Definition turns (s : Spinor R) (a b : Vector R) : Prop :=
  cnorm2 (den TSpin s) = cnorm (den TVec a) * cnorm (den TVec b) /\
  ceq (den TImsp (sandwich s a)) (den TVec (vtimes (dot a a) b)).

(** The part of [a] along the normal of a plane. *)
Definition normal_part (plane : BiVector R) (a : Vector R) : Vector R :=
  vtimes (dot a (axis plane) / dot (axis plane) (axis plane)) (axis plane).
