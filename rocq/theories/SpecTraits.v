(** * Specification: blades. *)

Require Import Reals List.
Require Import Verif.Types Verif.SpecCl Verif.SpecFunc.
Import ListNotations.
Local Open Scope R_scope.

(** A blade of grade [n] is a multiple of a product of [n] mutually orthogonal
    vectors. *)
Definition vector_product (l : list (Vector R)) : clf := fold_right (fun v p => gp (den TVec v) p) cone l.
Definition blade_value (n : nat) (a : clf) : Prop := exists (s : R) (l : list (Vector R)),
  length l = n /\ ForallOrdPairs (fun u v => dot u v = 0) l /\ ceq a (cscale s (vector_product l)).
