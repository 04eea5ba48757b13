(** * Identities of the algebra that hold to the bit.

    Only statements; proofs are in BitFacts.v and BitThm.v. *)

Require Import ZArith List Bool.
From Flocq Require Import BinarySingleNaN.
Require Import Verif.Num Verif.Types Verif.OpsUni Verif.OpsMul Verif.Func Verif.B64 Verif.SpecRound Verif.SpecBit Verif.BitThm.
Import ListNotations.

(** C74: the reverse of a product is, to the bit and for all doubles (with
    infinities and NaN), the product of the reverses in the other order, for
    all pairs of types but four; for these four it is not. *)
Theorem C74_reverse : forall a b, ~ In (a, b) no_reverse <->
  forall (x : val f64 a) (y : val f64 b), identical (parts _ (reverse _ (mul a b x y))) (parts _ (mul b a (reverse b y) (reverse a x))).
Proof. exact reverse_bits. Qed.
Print Assumptions C74_reverse.
Theorem C74_dirverse : forall a b, ~ In (a, b) no_reverse <->
  forall (x : val f64 a) (y : val f64 b), identical (parts _ (dirverse _ (mul a b x y))) (parts _ (mul b a (dirverse b y) (dirverse a x))).
Proof. exact dirverse_bits. Qed.
Print Assumptions C74_dirverse.

(** The dual of a product is the product with the dual of either factor, for
    all pairs of types but four each. *)
Theorem C74_dual_left : forall a b, ~ In (a, b) no_dual_left <->
  forall (x : val f64 a) (y : val f64 b), identical (parts _ (dual _ (mul a b x y))) (parts _ (mul _ b (dual a x) y)).
Proof. exact dual_left_bits. Qed.
Print Assumptions C74_dual_left.
Theorem C74_dual_right : forall a b, ~ In (a, b) no_dual_right <->
  forall (x : val f64 a) (y : val f64 b), identical (parts _ (dual _ (mul a b x y))) (parts _ (mul a _ x (dual b y))).
Proof. exact dual_right_bits. Qed.
Print Assumptions C74_dual_right.

(** The product of finite values is that of the MultiVectors they stand for,
    for all pairs of types but 27. *)
Theorem C74_multivector : forall a b, ~ In (a, b) own_order <->
  forall (x : val f64 a) (y : val f64 b), all_finite a x -> all_finite b y ->
    identical (parts _ (mul a b x y)) (parts TMvec (mul TMvec TMvec (to_mv a x) (to_mv b y))).
Proof. exact multivector_bits. Qed.
Print Assumptions C74_multivector.

(** Factors commute to the bit, and the axes can be renamed in cycles,
    exactly if one of the two types is of scalars and trivectors only. *)
Theorem C74_commute : forall a b, central a \/ central b <->
  forall (x : val f64 a) (y : val f64 b), identical (parts _ (mul a b x y)) (parts _ (mul b a y x)).
Proof. exact commute_bits. Qed.
Print Assumptions C74_commute.
Theorem C74_cycle : forall a b, central a \/ central b <->
  forall (x : val f64 a) (y : val f64 b), identical (parts _ (cycle _ (mul a b x y))) (parts _ (mul a b (cycle a x) (cycle b y))).
Proof. exact cycle_bits. Qed.
Print Assumptions C74_cycle.

(** No three types have a product that is associative to the bit. *)
Theorem C74_associate : forall a b c, exists (x : val f64 a) (y : val f64 b) (z : val f64 c),
  ~ identical (parts _ (mul (mulTy a b) c (mul a b x y) z)) (parts _ (mul a (mulTy b c) x (mul b c y z))).
Proof. exact associate_bits. Qed.
Print Assumptions C74_associate.

(** The squared magnitude is to the bit the scalar part of the product with
    the reverse, for all types but MultiVector; the rest of this product is
    exactly zero, for all types but DirPlex and MultiVector, if it is finite. *)
Theorem C74_magSq : forall t, t <> TMvec <->
  forall x : val f64 t, same_but_zero_sign (scalar_of (parts _ (mul t t x (reverse t x)))) (magSq t x).
Proof. exact magSq_bits. Qed.
Print Assumptions C74_magSq.
Theorem C74_magSq_alone : forall t, t <> TDplx /\ t <> TMvec <->
  forall x : val f64 t, finites (parts _ (mul t t x (reverse t x))) -> zeros (skipn 1 (parts _ (mul t t x (reverse t x)))).
Proof. exact magSq_alone. Qed.
Print Assumptions C74_magSq_alone.

(** Likewise the squared amplitude and the product with the dirverse, the
    trivector part of ComPlex excepted. *)
Theorem C74_ampSq_scalar : forall t f, ampSq t = Some f -> (t <> TMvec <->
  forall x : val f64 t, same_but_zero_sign (scalar_of (parts _ (mul t t x (dirverse t x)))) (sca_0 (cplxSca (f x)))).
Proof. exact ampSq_scalar_bits. Qed.
Print Assumptions C74_ampSq_scalar.
Theorem C74_ampSq_trivector : forall t f, ampSq t = Some f -> (t <> TCplx /\ t <> TMvec <->
  forall x : val f64 t, same_but_zero_sign (trivector_of (parts _ (mul t t x (dirverse t x)))) (tri_0 (cplxTri (f x)))).
Proof. exact ampSq_trivector_bits. Qed.
Print Assumptions C74_ampSq_trivector.
Theorem C74_ampSq_alone : forall t, t <> TMvec <->
  forall x : val f64 t, finites (parts _ (mul t t x (dirverse t x))) -> zeros (between (parts _ (mul t t x (dirverse t x)))).
Proof. exact ampSq_alone. Qed.
Print Assumptions C74_ampSq_alone.

(** Finite operands are needed for MultiVectors, finite results for zeros. *)
Theorem C74_infinite : let x := Vec (B754_infinity false : f64) (f64_lit 1 0) (f64_lit 1 0) in let y := Vec (f64_lit 1 0) (f64_lit 1 0) (f64_lit 1 0) in
  ~ identical (parts _ (mul TVec TVec x y)) (parts TMvec (mul TMvec TMvec (to_mv TVec x) (to_mv TVec y))).
Proof. exact infinite_bits. Qed.
Print Assumptions C74_infinite.

(** Two spinors with 53-bit components: finite, with finite products, not
    commuting, and of a pair of types for which the reverse is exact. *)
Example C74_example : let x := wit TSpin in let y := wit' TSpin in
  all_finite TSpin x /\ all_finite TSpin y /\ ~ In (TSpin, TSpin) no_reverse /\ ~ In (TSpin, TDplx) no_dual_left /\ ~ In (TVec, TDplx) own_order /\
  finites (parts _ (mul TSpin TSpin x (reverse TSpin x))) /\ finites (parts _ (mul TSpin TSpin x (dirverse TSpin x))) /\
  ~ identical (parts _ (mul TSpin TSpin x y)) (parts _ (mul TSpin TSpin y x)) /\
  ~ identical (parts _ (mul TSpin TSpin x y)) (parts TMvec (mul TMvec TMvec (to_mv TSpin x) (to_mv TSpin y))).
Proof.
  exact (conj (wit_fin TSpin) (conj (wit'_fin TSpin) example_bits)).
Qed.
