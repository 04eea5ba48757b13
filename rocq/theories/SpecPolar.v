(** * Specification: the polar form of multivectors. *)

Require Import Reals.
Require Import Verif.Num Verif.Types Verif.OpsMul Verif.Const Verif.Func Verif.SpecCl Verif.RealInst.
Local Open Scope R_scope.

(** The library's amplitude of [x] is the complex number [A]. *)
Definition amplitude_is (t : ty) (x : val R t) (A : ComPlex R) : Prop :=
  exists f, amplitude t = Some f /\ f (exact t x) = exact TCplx A.
(** [U] times its dirverse is 1. *)
Definition unitary (U : MultiVector R) : Prop := ceq (gp (den TMvec U) (cdir (den TMvec U))) cone.
(** [m] makes some non-zero multivector vanish. *)
Definition zero_divisor (m : MultiVector R) : Prop :=
  exists y : MultiVector R, y <> zero TMvec /\ mul TMvec TMvec m y = zero TMvec.
(** The complex number [a + b e123]. *)
Definition complex (a b : R) : ComPlex R := mkCplx (Sca a) (Tri b).
