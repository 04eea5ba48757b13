(** * Specification: rates of change. *)

Require Import Reals.
Require Import Verif.Num Verif.Types Verif.OpsMul Verif.SpecCl Verif.RealInst Verif.SpecFunc.
Local Open Scope R_scope.

(** [g] is the derivative of [f] at every time, coefficient by coefficient. *)
Definition changes_by (f g : R -> clf) : Prop := forall t k, derivable_pt_lim (fun u => f u k) t (g t k).
(** What the vector [v] changes by when it turns in the plane of [B]. *)
Definition swept (B : BiVector R) (v : Vector R) : clf := csub (gp (den TBiv B) (den TVec v)) (gp (den TVec v) (den TBiv B)).
