(** * Specification: the Clifford algebra Cl(0,3), generators squaring to -1.

    The same blades and coefficients as in SpecCl.v; each generator that
    cancels contributes one more change of sign. *)

Require Import Reals Bool List.
From Coquelicot Require Import Coquelicot.
Require Import Verif.Types Verif.Priv Verif.SpecCl Verif.SpecFunc.
Local Open Scope R_scope.

Definition shared_odd (i j : blade) : bool :=
  xorb (xorb (in1 i && in1 j) (in2 i && in2 j)) (in3 i && in3 j).
Definition ap (a b : clf) : clf := fun k =>
  rsum (map (fun i => (if shared_odd i (bxor i k) then -1 else 1) *
                      bsign i (bxor i k) * a i * b (bxor i k)) all_blades).

Fixpoint apow (a : clf) (n : nat) : clf :=
  match n with
  | O => cone
  | S n' => ap a (apow a n')
  end.

(** [e] is the sum of [a^n / n!] with the powers of this product. *)
Definition is_aexp (a e : clf) : Prop :=
  forall k, is_series (fun n => apow a n k / INR (fact n)) (e k).

(** The two vectors the exponential of [M] in this algebra depends on: vector
    part minus and plus the bivector part, component by component; and the
    arguments for which the code divides by a length of at least 1e-4 or by
    none. *)
Definition part_minus (M : MultiVector R) : Vector R :=
  Vec (vec_0 (mvVec M) - biv_0 (mvBiv M)) (vec_1 (mvVec M) - biv_1 (mvBiv M)) (vec_2 (mvVec M) - biv_2 (mvBiv M)).
Definition part_plus (M : MultiVector R) : Vector R :=
  Vec (vec_0 (mvVec M) + biv_0 (mvBiv M)) (vec_1 (mvVec M) + biv_1 (mvBiv M)) (vec_2 (mvVec M) + biv_2 (mvBiv M)).
Definition sync_exactly (v : Vector R) : Prop := cnorm (den TVec v) = 0 \/ sync_lim <= cnorm (den TVec v).
