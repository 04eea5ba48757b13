(** * C96: multivectors as exponentials.

    Only statements; proofs are in PLogFacts.v. *)

Require Import Reals.
Require Import Verif.Num Verif.Types Verif.Const Verif.Func Verif.SpecCl Verif.SpecExp Verif.RealInst Verif.SpecPolar Verif.PLogFacts.
Local Open Scope R_scope.

(** C96: the decomposition of math/PolarForm.lyx, for every multivector whose amplitude is not zero. *)
Theorem C96_polar_exponential : forall M : MultiVector R, ~ amplitude_is TMvec M (zero TCplx) -> exists (s : Scalar R) (t : TriVector R) (F : DirPlex R) Es Et Ef,
  is_cexp (den TSca s) Es /\ is_cexp (den TTri t) Et /\ is_cexp (den TDplx F) Ef /\ ceq (den TMvec M) (gp (gp Es Et) Ef).
Proof. exact polar_exponential. Qed.
Print Assumptions C96_polar_exponential.
(** Those are the multivectors that have a logarithm. *)
Theorem C96_logarithms : forall M : MultiVector R, ~ amplitude_is TMvec M (zero TCplx) <-> exists L : MultiVector R, is_cexp (den TMvec L) (den TMvec M).
Proof. exact logarithms. Qed.
Print Assumptions C96_logarithms.
(** The scalar and trivector of a logarithm give the amplitude, up to sign. *)
Theorem C96_amplitude : forall L M : MultiVector R, is_cexp (den TMvec L) (den TMvec M) -> let s := sca_0 (mvSca L) in let t := tri_0 (mvTri L) in
  amplitude_is TMvec M (complex (exp s * cos t) (exp s * sin t)) \/ amplitude_is TMvec M (complex (- (exp s * cos t)) (- (exp s * sin t))).
Proof. exact exp_amplitude. Qed.
Print Assumptions C96_amplitude.
(** 2 + e1 has an amplitude that is not zero; 1 + e1 has no logarithm. *)
Example C96_example : let M := mkMvec (Sca 2) (Vec 1 0 0) (Biv 0 0 0) (Tri 0) in let Z := mkMvec (Sca 1) (Vec 1 0 0) (Biv 0 0 0) (Tri 0) in
  ~ amplitude_is TMvec M (zero TCplx) /\ ~ exists L : MultiVector R, is_cexp (den TMvec L) (den TMvec Z).
Proof. exact log_example. Qed.
