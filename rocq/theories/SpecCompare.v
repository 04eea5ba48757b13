(** * Specification: exact lengths and distances of lists of doubles, grades. *)

Require Import Reals List.
From Flocq Require Import Core BinarySingleNaN.
Require Import Verif.Num Verif.Types Verif.Priv Verif.B64.
Import ListNotations.
Local Open Scope R_scope.

(** The exact squared length, and the exact squared distance. *)
Definition norm2 (l : list f64) : R := fold_right (fun x s => B2R x * B2R x + s) 0 l.
Definition dist2 (g r : list f64) : R :=
  fold_right (fun p s => (B2R (fst p) - B2R (snd p)) * (B2R (fst p) - B2R (snd p)) + s) 0 (combine g r).

(** 2^-53, half the spacing of doubles at 1; 2^-1075, half the smallest double. *)
Definition rel_err : R := bpow radix2 (-53).
Definition abs_err : R := bpow radix2 (-1075).

(** The grades of an object as slices (start, length) of its components. *)
Definition slices (t : ty) : list (nat * nat) :=
  match t with
  | TDub | TSca | TTri => [(0, 1)]
  | TVec | TBiv => [(0, 3)]
  | TSpin => [(0, 1); (1, 3)]
  | TImsp => [(0, 3); (3, 1)]
  | TCplx => [(0, 1); (1, 1)]
  | TDplx => [(0, 3); (3, 3)]
  | TMvec => [(0, 1); (1, 3); (4, 3); (7, 1)]
  end%nat.
Definition slice {A} (l : list A) (p : nat * nat) : list A := firstn (snd p) (skipn (fst p) l).

(** IEEE equality: the same number, or zeros of any sign; NaN equals nothing. *)
Definition ieee_equal (x y : f64) : Prop :=
  (is_nan x = false /\ x = y) \/ (exists s s', x = B754_zero s /\ y = B754_zero s').
