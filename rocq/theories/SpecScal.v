(** * Scalars as spinors: specification. *)

From Flocq Require Import Core BinarySingleNaN.
Require Import Verif.Num Verif.Types Verif.Const Verif.B64.

(** One of the coordinate planes. *)
Definition axis_plane (p : BiVector f64) : Prop := p = c_e23 \/ p = c_e31 \/ p = c_e12.
