(** * The text printed by exp(MultiVector), and a neighbour of pi: proofs. *)

Require Import Reals ZArith List Bool Lra Lia.
From Flocq Require Import Core BinarySingleNaN.
Require Import Verif.Num Verif.Types Verif.Priv Verif.Const Verif.Validity Verif.Func Verif.B64 Verif.SpecValid
  Verif.ValidFacts Verif.ValidThm Verif.SpecConst Verif.NearPi.
Import ListNotations.
Local Open Scope R_scope.

Lemma exp_lines : forall (L : Libm f64) (x : MultiVector f64),
  (Forall (fun k => valid_number (nth k (elems TMvec x) B754_nan)) (first_of_grade TMvec) ->
   map fst (fst (exp_Mvec_io x)) = [Lapos; Laneg; Lcospos; Lcosneg; Lsyncpos; Lsyncneg; Lhea0; Lepa123; Lena123; Lsum]) /\
  (~ Forall (fun k => valid_number (nth k (elems TMvec x) B754_nan)) (first_of_grade TMvec) ->
   fst (exp_Mvec_io x) = []).
Proof.
  intros L x. pose proof (isValid_first TMvec x) as W. change (isValid TMvec x) with (isValid_Mvec x) in W.
  unfold exp_Mvec_io. destruct (isValid_Mvec x).
  - split; [reflexivity|]. intros H. exfalso. apply H, W. reflexivity.
  - split; [|reflexivity]. intros H. apply W in H. discriminate.
Qed.
Lemma zero_valid : forall s, valid_number (B754_zero s : f64).
Proof. intros s. split; [reflexivity|left; reflexivity]. Qed.
Lemma one_valid : valid_number (f64_lit 1 0).
Proof. apply isValid_number. vm_compute. reflexivity. Qed.
Lemma exp_lines_cases :
  Forall (fun k => valid_number (nth k (elems TMvec (mv_of_Vec (Vec (f64_lit 1 0) (f64_lit 3 5) B754_nan))) B754_nan))
    (first_of_grade TMvec) /\
  ~ Forall (fun k => valid_number (nth k (elems TMvec (mv_of_Sca (Sca (B754_nan : f64)))) B754_nan)) (first_of_grade TMvec).
Proof.
  split.
  - constructor; [apply (zero_valid false)|]. constructor; [apply one_valid|].
    constructor; [apply (zero_valid false)|]. constructor; [apply (zero_valid false)|constructor].
  - intros H. inversion H as [|? ? [H1 _] _]. discriminate.
Qed.
Lemma exp_prints : forall L : Libm f64, ~ (forall x : MultiVector f64, fst (exp_Mvec_io x) = []).
Proof.
  intros L H. destruct (exp_lines L (mv_of_Vec (Vec (f64_lit 1 0) (f64_lit 3 5) B754_nan))) as [A _].
  specialize (A (proj1 exp_lines_cases)). rewrite H in A. discriminate.
Qed.
Lemma pi_neighbour : is_finite (f64_lit 7074237752028441 (-51)) = true /\
  B2R (f64_lit 7074237752028441 (-51)) <> B2R (c_pi : f64).
Proof.
  split; [vm_compute; reflexivity|]. intros H.
  apply B2R_inj in H; [|vm_compute; reflexivity|vm_compute; reflexivity].
  assert (X : B2SF (f64_lit 7074237752028441 (-51)) = B2SF (c_pi : f64)) by (rewrite H; reflexivity).
  vm_compute in X. discriminate.
Qed.
