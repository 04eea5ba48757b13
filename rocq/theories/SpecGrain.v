(** * Specification: numbers on a grid, and numbers of plain size. *)

Require Import Reals ZArith List Bool.
From Flocq Require Import Core BinarySingleNaN.
Require Import Verif.Num Verif.Types Verif.Priv Verif.B64 Verif.SpecProg.
Import ListNotations.
Local Open Scope R_scope.

(** Whole multiples of [2^g]. *)
Definition multiple (g : Z) (r : R) : Prop := exists k : Z, r = IZR k * bpow radix2 g.
Definition on_grid (g : Z) (t : ty) (x : val f64 t) : Prop :=
  Forall (fun v : f64 => multiple g (B2R v)) (elems t x).

(** Every component is zero or from [2^-a] to [2^a] in size. *)
Definition sized (a : Z) (t : ty) (x : val f64 t) : Prop :=
  Forall (fun v : f64 => is_finite v = true /\ (B2R v = 0 \/ bpow radix2 (- a) <= Rabs (B2R v)) /\ Rabs (B2R v) <= bpow radix2 a) (elems t x).

(** The grid of the value of an expression whose leaves are on the grid [2^g]. *)
Fixpoint grid_bound (g : Z) {F} (p : prog F) : Z :=
  match p with
  | PLeaf _ _ => g
  | PUni UMagSq p => 2 * grid_bound g p
  | PUni _ p => grid_bound g p
  | PMul p q => grid_bound g p + grid_bound g q
  | PAdd p q | PSub p q => Z.min (grid_bound g p) (grid_bound g q)
  end.
