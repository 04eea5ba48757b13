(** * Client expressions of any size.

    Only statements; proofs are in ProgFacts.v. *)

Require Import Reals ZArith List Bool.
From Flocq Require Import Core BinarySingleNaN.
Require Import Verif.Num Verif.Types Verif.Priv Verif.OpsUni Verif.OpsAdd Verif.OpsSub Verif.OpsMul Verif.Const Verif.Func
  Verif.SpecCl Verif.SpecFunc Verif.RealInst Verif.B64 Verif.SpecRound Verif.SpecAcc Verif.SpecValid Verif.SpecSame Verif.SpecMirror
  Verif.SpecProg Verif.ProgFacts.
Local Open Scope R_scope.

(** C69: over the reals an expression has the multivector it stands for. *)
Theorem C69_exact : forall (p : prog R) v, no_wrong_sign p -> eval p = Some v ->
  ceq (den (projT1 v) (projT2 v)) (meaning p).
Proof. exact prog_exact. Qed.
Print Assumptions C69_exact.
(** An expression has a value exactly if it has a type, and of this type. *)
Theorem C69_type : forall F (RF : Ring0 F) (p : prog F),
  typ p = match eval p with Some v => Some (projT1 v) | None => None end.
Proof. exact eval_typ. Qed.
Print Assumptions C69_type.

(** On binary64, a finite result means that every value written was finite and
    that the result is within the running error bound. *)
Theorem C69_error : forall (p : prog f64) v, no_wrong_sign p -> eval p = Some v -> all_finite (projT1 v) (projT2 v) ->
  cnorm (meant p) <= size p /\ cnorm (csub (exactly (projT1 v) (projT2 v)) (meant p)) <= error p.
Proof. exact prog_error. Qed.
Print Assumptions C69_error.
Theorem C69_finite : forall (p : prog f64) v, eval p = Some v -> all_finite (projT1 v) (projT2 v) -> every_leaf all_finite p.
Proof. exact prog_finite. Qed.
Print Assumptions C69_finite.
(** A NaN or another value that is not finite stays visible. *)
Theorem C69_nan : forall (p : prog f64) v, eval p = Some v -> some_leaf has_nan p -> has_nan (projT1 v) (projT2 v).
Proof. exact prog_nan. Qed.
Print Assumptions C69_nan.
Theorem C69_nonfinite : forall (p : prog f64) v, eval p = Some v -> some_leaf has_nonfinite p -> has_nonfinite (projT1 v) (projT2 v).
Proof. exact prog_nonfinite. Qed.
Print Assumptions C69_nonfinite.
(** No overflow, from exponents. *)
Theorem C69_no_overflow : forall e (p : prog f64) v, (0 <= e)%Z -> every_leaf (within e) p -> (exponent_bound e p <= 1023)%Z ->
  eval p = Some v -> within (exponent_bound e p) (projT1 v) (projT2 v).
Proof. exact prog_within. Qed.
Print Assumptions C69_no_overflow.

(** Expressions that mean the same have results that differ by at most the
    two bounds: in particular for products with other parentheses and for
    products of sums. *)
Theorem C69_same_meaning : forall (p q : prog f64) v w, no_wrong_sign p -> no_wrong_sign q -> ceq (meant p) (meant q) ->
  eval p = Some v -> eval q = Some w -> all_finite (projT1 v) (projT2 v) -> all_finite (projT1 w) (projT2 w) ->
  cnorm (csub (exactly (projT1 v) (projT2 v)) (exactly (projT1 w) (projT2 w))) <= error p + error q.
Proof. exact prog_same. Qed.
Print Assumptions C69_same_meaning.
Theorem C69_associative : forall (p q r : prog f64) v w, no_wrong_sign p -> no_wrong_sign q -> no_wrong_sign r ->
  eval (PMul (PMul p q) r) = Some v -> eval (PMul p (PMul q r)) = Some w ->
  all_finite (projT1 v) (projT2 v) -> all_finite (projT1 w) (projT2 w) ->
  cnorm (csub (exactly (projT1 v) (projT2 v)) (exactly (projT1 w) (projT2 w)))
    <= error (PMul (PMul p q) r) + error (PMul p (PMul q r)).
Proof. exact prog_assoc. Qed.
Print Assumptions C69_associative.
Theorem C69_distributive : forall (p q r : prog f64) v w, no_wrong_sign p -> no_wrong_sign q -> no_wrong_sign r ->
  eval (PMul p (PAdd q r)) = Some v -> eval (PAdd (PMul p q) (PMul p r)) = Some w ->
  all_finite (projT1 v) (projT2 v) -> all_finite (projT1 w) (projT2 w) ->
  cnorm (csub (exactly (projT1 v) (projT2 v)) (exactly (projT1 w) (projT2 w)))
    <= error (PMul p (PAdd q r)) + error (PAdd (PMul p q) (PMul p r)).
Proof. exact prog_dist. Qed.
Print Assumptions C69_distributive.

(** A product of any number of values of length at most L, types mixed. *)
Theorem C69_chain : forall L, 1 <= L -> forall (x : tval f64) (l : list (tval f64)) v,
  cnorm (exactly (projT1 x) (projT2 x)) <= L ->
  Forall (fun y => unmixed (projT1 y) = true /\ cnorm (exactly (projT1 y) (projT2 y)) <= L) l ->
  eval (chain x l) = Some v -> all_finite (projT1 v) (projT2 v) ->
  cnorm (csub (exactly (projT1 v) (projT2 v)) (meant (chain x l))) <=
    ((1 + 26 * unit_roundoff) ^ length l - 1) * L ^ S (length l) +
    26 * underflow_unit * (INR (length l) * ((1 + 26 * unit_roundoff) * L) ^ length l).
Proof. exact prog_chain. Qed.
Print Assumptions C69_chain.

(** Integers: every rounding is exact as long as the bound stays at 2^53. *)
Theorem C69_integers : forall M (p : prog f64) v, (1 <= M)%Z -> no_wrong_sign p -> every_leaf (integers M) p ->
  (integer_bound M p <= 2 ^ 53)%Z -> eval p = Some v ->
  integers (integer_bound M p) (projT1 v) (projT2 v) /\ ceq (exactly (projT1 v) (projT2 v)) (meant p).
Proof. exact prog_integers. Qed.
Print Assumptions C69_integers.

(** The signs of zeros that are written matter only for the signs of zeros. *)
Theorem C69_zero_sign : forall p p' : prog f64, alike samev p p' -> alike_result samev (eval p) (eval p').
Proof. exact prog_zero_sign. Qed.
Print Assumptions C69_zero_sign.
(** Reflecting every value in coordinate planes reflects the result, to the
    bit up to the sign of zero; with [dual] only for an even number of
    reflections, since e1e2e3 changes its sign with an odd number. *)
Theorem C69_mirror : forall r1 r2 r3 (p p' : prog f64), alike (mirrored (mirror false r1 r2 r3)) p p' ->
  no_dual p \/ xorb r1 (xorb r2 r3) = false ->
  alike_result (mirrored (mirror false r1 r2 r3)) (eval p) (eval p').
Proof. exact prog_mirrors. Qed.
Print Assumptions C69_mirror.

(** |s v reverse(s) - v|^2 for a spinor s and a vector v with small integer components. *)
Example C69_example : typ ex_prog = Some TDub /\ no_wrong_sign ex_prog /\ every_leaf (integers 3) ex_prog /\
  (integer_bound 3 ex_prog <= 2 ^ 53)%Z /\ exists v, eval ex_prog = Some (existT _ TDub v).
Proof. exact ex_integers. Qed.
