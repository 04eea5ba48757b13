(** * Specification: doubles up to the sign of zero. *)

Require Import List.
From Flocq Require Import BinarySingleNaN.
Require Import Verif.Num Verif.Types Verif.Priv Verif.B64.
Import ListNotations.

(** The same double, NaN included, or two zeros. *)
Definition same (a b : f64) : Prop := a = b \/ exists s s', a = B754_zero s /\ b = B754_zero s'.
Definition samev (t : ty) (x y : val f64 t) : Prop := Forall2 same (elems t x) (elems t y).
Definition sameo (o : option ty) : oval f64 o -> oval f64 o -> Prop :=
  match o with Some t => samev t | None => fun _ _ => True end.
