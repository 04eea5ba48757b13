(** * Specification: logarithms and square roots of a spinor.  All of them, and
    the one that is shortest. *)

Require Import Reals ZArith.
Require Import Verif.Num Verif.Types Verif.OpsMul Verif.SpecCl Verif.SpecExp Verif.RealInst Verif.SpecFunc.
Local Open Scope R_scope.

(** [w] is a logarithm of [S]: its power series sums to [S]. *)
Definition is_log (w S : Spinor R) : Prop := is_cexp (den TSpin w) (den TSpin S).
(** [r] is a square root of [S] in the algebra. *)
Definition is_root (r S : Spinor R) : Prop := ceq (gp (den TSpin r) (den TSpin r)) (den TSpin S).
(** The angle a spinor turns by in its plane, without sign, for [exp]. *)
Definition angle_of (w : Spinor R) : R := cnorm (den TBiv (spinBiv w)).
