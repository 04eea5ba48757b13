(** * Computed angles: specification. *)

Require Import Reals.
From Flocq Require Import Core BinarySingleNaN.
Require Import Verif.Num Verif.Types Verif.B64 Verif.SpecCl Verif.SpecFunc Verif.SpecRound.
Local Open Scope R_scope.

(** The scalar product of two vectors, exactly; [th] is the angle between
    them if it is the product of the lengths and the cosine of [th]. *)
Definition vdot (a b : Vector f64) : R :=
  B2R (vec_0 a) * B2R (vec_0 b) + B2R (vec_1 a) * B2R (vec_1 b) + B2R (vec_2 a) * B2R (vec_2 b).
Definition angle_between (a b : Vector f64) (th : R) : Prop :=
  0 <= th <= PI /\ vdot a b = cnorm (exactly TVec a) * cnorm (exactly TVec b) * cos th.
(** [th] is half the angle by which [s] turns. *)
Definition half_angle (s : Spinor f64) (th : R) : Prop :=
  0 <= th <= PI /\ B2R (sca_0 (spinSca s)) = cnorm (exactly TSpin s) * cos th.
