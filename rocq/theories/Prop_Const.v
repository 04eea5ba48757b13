(** * Constants, and the text printed by exp(MultiVector). *)

Require Import Reals ZArith List Bool Lra.
From Flocq Require Import Core BinarySingleNaN.
Require Import Verif.Num Verif.Types Verif.Priv Verif.Const Verif.Func Verif.B64 Verif.SpecValid Verif.SpecConst
  Verif.NearPi Verif.ConstThm.
Import ListNotations.
Local Open Scope R_scope.

(** C47: each constant is nearer to the exact multiple of pi than any double
    of another value. *)
Theorem C47_pi_constants : nearest_double PI (c_pi : f64) /\ nearest_double (PI / 2) (c_piHalf : f64) /\
  nearest_double (PI / 4) (c_piQtr : f64) /\ nearest_double (2 * PI) (c_turnFull : f64) /\
  nearest_double PI (c_turnHalf : f64) /\ nearest_double (PI / 2) (c_turnQtr : f64).
Proof. exact pi_nearest. Qed.
Print Assumptions C47_pi_constants.
(** The literal of the source, of which the model holds the double. *)
Theorem C47_literal : nearest_double (3141592653589793 / 10 ^ 15) (c_pi : f64).
Proof. exact pi_literal. Qed.
Print Assumptions C47_literal.
Example C47_example : is_finite (f64_lit 7074237752028441 (-51)) = true /\
  B2R (f64_lit 7074237752028441 (-51)) <> B2R (c_pi : f64).
Proof. exact pi_neighbour. Qed.

(** C48, full statement, false of the code: no function writes to
    [std::cout].  Every other function modelled is a plain function of its
    arguments; only exp(MultiVector) carries a trace. *)
Theorem C48_refuted : forall L : Libm f64, ~ (forall x : MultiVector f64, fst (exp_Mvec_io x) = []).
Proof. exact exp_prints. Qed.
Print Assumptions C48_refuted.
(** What it does instead: ten labelled lines, or nothing when one of the
    first components of the four grades is not a valid number. *)
Theorem C48_lines_partial : forall (L : Libm f64) (x : MultiVector f64),
  (Forall (fun k => valid_number (nth k (elems TMvec x) B754_nan)) (first_of_grade TMvec) ->
   map fst (fst (exp_Mvec_io x)) = [Lapos; Laneg; Lcospos; Lcosneg; Lsyncpos; Lsyncneg; Lhea0; Lepa123; Lena123; Lsum]) /\
  (~ Forall (fun k => valid_number (nth k (elems TMvec x) B754_nan)) (first_of_grade TMvec) ->
   fst (exp_Mvec_io x) = []).
Proof. exact exp_lines. Qed.
Print Assumptions C48_lines_partial.
Example C48_example :
  Forall (fun k => valid_number (nth k (elems TMvec (mv_of_Vec (Vec (f64_lit 1 0) (f64_lit 3 5) B754_nan))) B754_nan))
    (first_of_grade TMvec) /\
  ~ Forall (fun k => valid_number (nth k (elems TMvec (mv_of_Sca (Sca (B754_nan : f64)))) B754_nan)) (first_of_grade TMvec).
Proof. exact exp_lines_cases. Qed.
