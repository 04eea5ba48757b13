(** * Chains of comparisons.

    Only statements; proofs are in ChainFacts.v. *)

Require Import Reals ZArith List Bool Lra.
From Flocq Require Import Core BinarySingleNaN.
Require Import Verif.Num Verif.Types Verif.Priv Verif.Compare Verif.B64 Verif.SpecCompare Verif.SpecChain Verif.ScaleThm Verif.ChainFacts.
Import ListNotations.
Local Open Scope R_scope.

(** C77: in a chain of values, each nearly equal to the next, the first is
    nearly equal to the last at any tolerance above what the steps allow
    together. *)
Theorem C77_chain : forall t (x : val f64 t) l (tol tol' t' : f64), t <> TDub ->
  is_finite tol = true -> is_finite tol' = true -> bpow radix2 (-53) <= B2R tol ->
  l <> [] -> linked (fun a b => nearlyEquals t a b tol = true) x l ->
  Forall (fun p => Forall (fun y => plain_grade (slice (elems t y) p)) l \/
                   Forall (fun y => vanishing_grade (slice (elems t y) p)) l) (slices t) ->
  (1 + allowed tol) ^ length l - 1 <= (1 - bpow radix2 (-47)) * B2R t' -> B2R t' <= 1 -> B2R t' < B2R tol' ->
  nearlyEquals t x (last l x) tol' = true.
Proof. exact chain_accept. Qed.
Print Assumptions C77_chain.

(** Two steps, in round numbers: three times the tolerance. *)
Theorem C77_transitive : forall t (x y z : val f64 t) (tol tol' : f64), t <> TDub ->
  is_finite tol = true -> is_finite tol' = true ->
  bpow radix2 (-53) <= B2R tol <= / 8 -> 3 * B2R tol <= B2R tol' ->
  nearlyEquals t x y tol = true -> nearlyEquals t y z tol = true ->
  Forall (fun p => (plain_grade (slice (elems t y) p) /\ plain_grade (slice (elems t z) p)) \/
                   (vanishing_grade (slice (elems t y) p) /\ vanishing_grade (slice (elems t z) p))) (slices t) ->
  nearlyEquals t x z tol' = true.
Proof. exact three_times. Qed.
Print Assumptions C77_transitive.

(** The arguments exchanged. *)
Theorem C77_symmetric : forall t (x y : val f64 t) (tol tol' t' : f64), t <> TDub ->
  is_finite tol = true -> is_finite tol' = true -> bpow radix2 (-53) <= B2R tol ->
  nearlyEquals t x y tol = true ->
  Forall (fun p => (plain_grade (slice (elems t x) p) /\ plain_grade (slice (elems t y) p)) \/
                   (vanishing_grade (slice (elems t x) p) /\ vanishing_grade (slice (elems t y) p))) (slices t) ->
  allowed tol <= (1 - allowed tol) * ((1 - bpow radix2 (-47)) * B2R t') -> 0 < B2R t' <= 1 -> B2R t' < B2R tol' ->
  nearlyEquals t y x tol' = true.
Proof. exact symmetric_accept. Qed.
Print Assumptions C77_symmetric.
(** In round numbers: twice the tolerance. *)
Theorem C77_exchange : forall t (x y : val f64 t) (tol tol' : f64), t <> TDub ->
  is_finite tol = true -> is_finite tol' = true ->
  bpow radix2 (-53) <= B2R tol <= / 4 -> 2 * B2R tol <= B2R tol' -> nearlyEquals t x y tol = true ->
  Forall (fun p => (plain_grade (slice (elems t x) p) /\ plain_grade (slice (elems t y) p)) \/
                   (vanishing_grade (slice (elems t x) p) /\ vanishing_grade (slice (elems t y) p))) (slices t) ->
  nearlyEquals t y x tol' = true.
Proof. exact two_times. Qed.
Print Assumptions C77_exchange.

(** At the same tolerance neither holds: 4, 5, 6 at one quarter. *)
Theorem C77_same_tolerance_refuted : let s n := Sca (f64_lit n 0) in
  nearlyEquals TSca (s 4%Z) (s 5%Z) (f64_lit 1 (-2)) = true /\ nearlyEquals TSca (s 5%Z) (s 6%Z) (f64_lit 1 (-2)) = true /\
  nearlyEquals TSca (s 4%Z) (s 6%Z) (f64_lit 1 (-2)) = false /\
  nearlyEquals TSca (s 5%Z) (s 4%Z) (f64_lit 1 (-2)) = false.
Proof. exact not_same_tolerance. Qed.
Print Assumptions C77_same_tolerance_refuted.
(** Nor does exchange with a grade that is zero on one side only. *)
Theorem C77_zero_grade_refuted : forall tol : f64, is_finite tol = true -> B2R tol <= 1 ->
  let s := fun m e => Sca (f64_lit m e) in
  nearlyEquals TSca (s 1%Z (-60)%Z) (s 0%Z 0%Z) (f64_lit 1 (-50)) = true /\
  nearlyEquals TSca (s 0%Z 0%Z) (s 1%Z (-60)%Z) tol = false.
Proof. exact zero_between. Qed.
Print Assumptions C77_zero_grade_refuted.

(** Values that meet the conditions of the theorems in round numbers: spinors
    with a plain scalar and no bivector, at one eighth. *)
Example C77_example : let s n := mkSpin (Sca (f64_lit n 0)) (Biv (f64_lit 0 0) (f64_lit 0 0) (f64_lit 0 0)) in
  nearlyEquals TSpin (s 15%Z) (s 16%Z) (f64_lit 1 (-3)) = true /\ nearlyEquals TSpin (s 16%Z) (s 17%Z) (f64_lit 1 (-3)) = true /\
  Forall (fun p => (plain_grade (slice (elems TSpin (s 16%Z)) p) /\ plain_grade (slice (elems TSpin (s 17%Z)) p)) \/
                   (vanishing_grade (slice (elems TSpin (s 16%Z)) p) /\ vanishing_grade (slice (elems TSpin (s 17%Z)) p))) (slices TSpin).
Proof. exact chain_case. Qed.
