(** * Round trips under the library's own comparison: specification. *)

Require Import Reals List.
From Flocq Require Import Core BinarySingleNaN.
Require Import Verif.Num Verif.Types Verif.B64.
Local Open Scope R_scope.

(** Every component of the value is at least the part [k] of [N] in absolute
    value: the comparison of Spinor is relative for the scalar and the
    bivector apart, so an error small against the whole may be large against
    a part. *)
Definition balanced (k N : R) (t : ty) (x : val f64 t) : Prop :=
  Forall (fun v : f64 => k * N <= Rabs (B2R v)) (elems t x).

(** A rotation by a tiny angle; a spinor with all components of like size. *)
Definition small_angle : Spinor f64 := mkSpin (Sca (f64_lit 1 0)) (Biv (f64_lit 1 (-40)) (f64_lit 0 0) (f64_lit 0 0)).
Definition trip_case : Spinor f64 := mkSpin (Sca (f64_lit 3 0)) (Biv (f64_lit 4 0) (f64_lit 1 0) (f64_lit (-2) 0)).
