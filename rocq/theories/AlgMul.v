(** * Every product overload is the geometric product (proof only). *)

Require Import Reals Lra Bool List.
Require Import Verif.Num Verif.Types Verif.Priv Verif.OpsUni Verif.OpsAdd
  Verif.OpsSub Verif.OpsMul Verif.Const Verif.Func Verif.SpecCl Verif.RealInst Verif.AlgTac.
Import ListNotations.
Local Open Scope R_scope.

Lemma mul_den : forall a b (x : val R a) (y : val R b),
  ceq (den (mulTy a b) (mul a b x y)) (gp (den a x) (den b y)).
Proof.
  intros a b x y k; destruct a, b; dvals; dblade k; dring.
Qed.

