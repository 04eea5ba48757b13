(** * Specification vocabulary: sequences of reflections. *)

Require Import Reals List.
Require Import Verif.Num Verif.Types Verif.OpsUni Verif.OpsMul Verif.Func Verif.SpecGeom.
Import ListNotations.

(** [w] comes from [v] by the mirrors with normals [ns], one after the other. *)
Fixpoint mirrored_all (ns : list (Vector R)) (v w : Vector R) : Prop :=
  match ns with
  | [] => w = v
  | n :: ns' => exists u, mirrored n v u /\ mirrored_all ns' u w
  end.

(** A program of a user: it keeps the vector part of [-(n * v * inverse(n))]
    for each of the normals in turn. *)
Fixpoint reflect_all {F} `{Arith F} (ns : list (Vector F)) (v : Vector F) : Vector F :=
  match ns with
  | [] => v
  | n :: ns' => reflect_all ns' (imspVec (neg TImsp (mul TSpin TVec (mul TVec TVec n v) (inverse_Vec n))))
  end.
