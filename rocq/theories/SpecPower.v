(** * Specification: closed types, streams in the same state. *)

Require Import Reals Ascii.
Require Import Verif.Types Verif.SpecCl Verif.Stream.

(** The values of the type form a closed sub-algebra. *)
Definition closed (t : ty) : Prop := forall x y : val R t, exists z : val R t, ceq (den t z) (gp (den t x) (den t y)).

(** Two output streams with the same formatting state. *)
Definition same_format (a b : ostream) : Prop :=
  os_nt a = os_nt b /\ os_prec a = os_prec b /\ os_fill a = os_fill b /\ os_left a = os_left b.
(** Two output streams that pad strings alike. *)
Definition same_padding (a b : ostream) : Prop :=
  os_width a = os_width b /\ os_fill a = os_fill b /\ os_left a = os_left b.
