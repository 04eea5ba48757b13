(** * C94: the polar form of multivectors.

    Only statements; proofs are in PolarFacts.v. *)

Require Import Reals.
Require Import Verif.Num Verif.Types Verif.OpsUni Verif.OpsMul Verif.Const Verif.Func Verif.SpecCl
  Verif.RealInst Verif.SpecFunc Verif.SpecPolar Verif.PolarFacts.
Local Open Scope R_scope.

(** C94: a multivector is its amplitude times a unitary one, in one way up to a common sign. *)
Theorem C94_polar_form : forall (M : MultiVector R) A, amplitude_is TMvec M A -> dmin < magSq TCplx A ->
  exists I, inverse_Cplx (exact TCplx A) = exact TCplx I /\ let U := mul TCplx TMvec I M in
    mul TCplx TMvec A U = M /\ unitary U /\ amplitude_is TMvec U (one TCplx) /\
    forall A' U', mul TCplx TMvec A' U' = M -> unitary U' -> A' = A /\ U' = U \/ A' = neg TCplx A /\ U' = neg TMvec U.
Proof. exact polar_form. Qed.
Print Assumptions C94_polar_form.
(** Every value of a type other than double has an amplitude. *)
Theorem C94_amplitude : forall t (x : val R t), t <> TDub -> exists A, amplitude_is t x A.
Proof. exact amp_exists. Qed.
Print Assumptions C94_amplitude.
Theorem C94_types :
  (forall x : Scalar R, amplitude_is TSca x (complex (cnorm (den TSca x)) 0)) /\ (forall x : Vector R, amplitude_is TVec x (complex 0 (cnorm (den TVec x)))) /\
  (forall x : BiVector R, amplitude_is TBiv x (complex (cnorm (den TBiv x)) 0)) /\ (forall x : TriVector R, amplitude_is TTri x (complex 0 (cnorm (den TTri x)))) /\
  (forall x : Spinor R, amplitude_is TSpin x (complex (cnorm (den TSpin x)) 0)) /\ (forall x : ImSpin R, amplitude_is TImsp x (complex 0 (cnorm (den TImsp x)))).
Proof. exact amp_table. Qed.
Print Assumptions C94_types.
(** Amplitudes multiply up to a sign, since the principal root is taken. *)
Theorem C94_product : forall a b (x : val R a) (y : val R b) A B, amplitude_is a x A -> amplitude_is b y B ->
  amplitude_is (mulTy a b) (mul a b x y) (mul TCplx TCplx A B) \/ amplitude_is (mulTy a b) (mul a b x y) (neg TCplx (mul TCplx TCplx A B)).
Proof. exact amp_product. Qed.
Print Assumptions C94_product.
(** The sign is needed: the amplitude of e1 e2 is not the product of those of e1 and e2. *)
Theorem C94_sign : exists (x y : Vector R) A B, amplitude_is TVec x A /\ amplitude_is TVec y B /\ ~ amplitude_is TSpin (mul TVec TVec x y) (mul TCplx TCplx A B).
Proof. exact amp_sign. Qed.
Print Assumptions C94_sign.
(** The multivectors with amplitude zero are the zero divisors. *)
Theorem C94_zero_divisors : forall m : MultiVector R, amplitude_is TMvec m (zero TCplx) <-> zero_divisor m.
Proof. exact amp_zero. Qed.
Print Assumptions C94_zero_divisors.
(** 2 + e1 has a polar form; 1 + e1 is a zero divisor. *)
Example C94_example : let M := mkMvec (Sca 2) (Vec 1 0 0) (Biv 0 0 0) (Tri 0) in let Z := mkMvec (Sca 1) (Vec 1 0 0) (Biv 0 0 0) (Tri 0) in
  amplitude_is TMvec M (complex (sqrt 3) 0) /\ dmin < magSq TCplx (complex (sqrt 3) 0) /\ amplitude_is TMvec Z (zero TCplx) /\ Z <> zero TMvec.
Proof. exact polar_example. Qed.
