(** * Specification: the exponential in Cl(3,0) is the power series. *)

Require Import Reals.
From Coquelicot Require Import Coquelicot.
Require Import Verif.SpecCl.
Local Open Scope R_scope.

Fixpoint cpow (a : clf) (n : nat) : clf :=
  match n with
  | O => cone
  | S n' => gp a (cpow a n')
  end.

(** [e] is the sum of [a^n / n!], coefficient by coefficient. *)
Definition is_cexp (a e : clf) : Prop :=
  forall k, is_series (fun n => cpow a n k / INR (fact n)) (e k).
