(** * Specification vocabulary: classical vector geometry. *)

Require Import Reals.
Require Import Verif.Types Verif.SpecCl Verif.SpecFunc.
Local Open Scope R_scope.

Definition cross (u v : Vector R) : Vector R :=
  Vec (vec_1 u * vec_2 v - vec_2 u * vec_1 v) (vec_2 u * vec_0 v - vec_0 u * vec_2 v)
      (vec_0 u * vec_1 v - vec_1 u * vec_0 v).
Definition vplus (u v : Vector R) : Vector R := Vec (vec_0 u + vec_0 v) (vec_1 u + vec_1 v) (vec_2 u + vec_2 v).
Definition vtimes (a : R) (v : Vector R) : Vector R := Vec (a * vec_0 v) (a * vec_1 v) (a * vec_2 v).

(** [w] is the mirror image of [v] in the plane with normal [n]: the midpoint
    of [v] and [w] is in the plane, and [v - w] is along the normal. *)
Definition mirrored (n v w : Vector R) : Prop :=
  dot (vplus v w) n = 0 /\ exists a, w = vplus v (vtimes a n).

(** [v = p + r] with [p] along [n] and [r] perpendicular to [n]. *)
Definition split_along (n v p r : Vector R) : Prop :=
  v = vplus p r /\ (exists a, p = vtimes a n) /\ dot r n = 0.
