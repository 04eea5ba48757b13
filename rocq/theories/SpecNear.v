(** * Specification: how far apart two objects are. *)

Require Import Reals.
Require Import Verif.Num Verif.Types Verif.SpecCl Verif.RealInst Verif.SpecFunc.
Local Open Scope R_scope.

(** Length of the difference of two objects of one type. *)
Definition apart (t : ty) (x y : val R t) : R := cnorm (csub (den t x) (den t y)).
(** The two calls return numbers, at most [d] apart. *)
Definition returns_within (t : ty) (u v : val xreal t) (d : R) : Prop :=
  exists x y, u = exact t x /\ v = exact t y /\ apart t x y <= d.
