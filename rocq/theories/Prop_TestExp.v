(** * The reference exponential of the tests (test/test_g3func_exp.cpp). *)

Require Import Reals ZArith List Bool Lra Lia.
From Flocq Require Import Core BinarySingleNaN.
Require Import Verif.Num Verif.Types Verif.Const Verif.Validity Verif.Func Verif.SpecCl Verif.SpecFunc Verif.SpecExp
  Verif.RealInst Verif.B64 Verif.SpecValid Verif.AlgTac Verif.TestExp Verif.TestExpThm Verif.TestExp64.
Import ListNotations.
Local Open Scope R_scope.

(** C84, exact arithmetic: [n] halvings, the least number that brings the norm
    down to one half, are made; the summation always converges; and the result
    is the exponential up to a relative error of (1 + 2^-44)^(2^n) - 1.  With
    fuel for no more than [n] rounds the model of the loop has not ended. *)
Theorem C84_sound : forall (m : MultiVector R) (n : nat),
  cnorm (den TMvec m) <= 2 ^ n / 2 -> (forall i, (i < n)%nat -> 2 ^ i / 2 < cnorm (den TMvec m)) ->
  exists r E, is_cexp (den TMvec m) E /\
    (forall fuel, computeExp fuel (exact TMvec m) = if (fuel <=? n)%nat then None else Some (exact TMvec r)) /\
    cnorm (csub (den TMvec r) E) <= ((1 + bpow radix2 (-44)) ^ (2 ^ n) - 1) * cnorm E.
Proof. exact computeExp_sound. Qed.
Print Assumptions C84_sound.

Theorem C84_accurate : forall m : MultiVector R, cnorm (den TMvec m) <= 2 ^ 42 -> exists fuel r E,
  computeExp fuel (exact TMvec m) = Some (exact TMvec r) /\ is_cexp (den TMvec m) E /\
  cnorm (csub (den TMvec r) E) <= bpow radix2 (-43) * (1 + 4 * cnorm (den TMvec m)) * cnorm E.
Proof. exact computeExp_accurate. Qed.
Print Assumptions C84_accurate.

(** The comparison of exp(MultiVector) with the reference fails for trivectors
    and vectors of length from 1 up. *)
Theorem C84_trivectors_refuted : forall t : R, 1 <= Rabs t <= 2 ^ 20 -> exists fuel,
  check fuel (exact TMvec (mkMvec zero_Sca zero_Vec zero_Biv (Tri t))) = Some false.
Proof. exact trivector_check. Qed.
Print Assumptions C84_trivectors_refuted.
Theorem C84_vectors_refuted : forall v : Vector R, 1 <= cnorm (den TVec v) <= 2 ^ 20 -> exists fuel,
  check fuel (exact TMvec (mkMvec zero_Sca v zero_Biv zero_Tri)) = Some false.
Proof. exact vector_check. Qed.
Print Assumptions C84_vectors_refuted.

(** On doubles: the function returns exactly for the arguments named. *)
Theorem C84_ends : forall x : MultiVector f64, (exists fuel, computeExp fuel x <> None) <->
  isValid TMvec x = false \/ has_nan TMvec x \/ Forall (fun v => is_finite v = true) (elems TMvec x).
Proof. exact ends_iff. Qed.
Print Assumptions C84_ends.
Theorem C84_finite : forall (x : MultiVector f64) fuel,
  Forall (fun v => is_finite v = true) (elems TMvec x) -> (1031 <= Z.of_nat fuel)%Z -> computeExp fuel x <> None.
Proof. exact finite_ends. Qed.
Print Assumptions C84_finite.
Theorem C84_null : forall (x : MultiVector f64) fuel, isValid TMvec x = false \/ has_nan TMvec x -> (1 <= fuel)%nat ->
  computeExp fuel x = Some null_Mvec.
Proof. exact bad_null. Qed.
Print Assumptions C84_null.
Theorem C84_fuel : forall {F} `{Arith F} fuel fuel' (x r : MultiVector F),
  computeExp fuel x = Some r -> (fuel <= fuel')%nat -> computeExp fuel' x = Some r.
Proof. exact @computeExp_more. Qed.
Print Assumptions C84_fuel.

(** An argument of norm 5, halved four times; an argument that [isValid] passes
    and for which the function never returns; zero, whose result is one. *)
Definition case84 : MultiVector R := mkMvec (Sca 1) (Vec 2 0 0) (Biv 0 4 0) (Tri 2).
Definition inf84 : MultiVector f64 :=
  mkMvec zero_Sca (Vec (B754_zero false) (B754_infinity false) (B754_zero false)) zero_Biv zero_Tri.
Example C84_example :
  cnorm (den TMvec case84) = 5 /\ 5 <= 2 ^ 4 / 2 /\ (forall i, (i < 4)%nat -> 2 ^ i / 2 < 5) /\
  isValid TMvec inf84 = true /\ (forall fuel, computeExp fuel inf84 = None) /\
  computeExp 1 (zero_Mvec : MultiVector f64) = Some one_Mvec.
Proof.
  split; [|split; [cbn; lra|split; [|split; [reflexivity|split]]]].
  - unfold cnorm. replace (cnorm2 (den TMvec case84)) with (5 * 5) by (unfold case84; dring). apply sqrt_square; lra.
  - intros i Hi. do 4 (destruct i as [|i]; [cbn; lra|]). lia.
  - intros fuel. apply never; [reflexivity| |].
    + repeat constructor.
    + right; right; left; reflexivity.
  - apply run_zero.
Qed.
