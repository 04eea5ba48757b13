(** * Specification: the same values in another frame.

    Turning the axes by a unit spinor [s] turns every value: the multivector
    [a] becomes [s a s~]. *)

Require Import Reals List.
Require Import Verif.Num Verif.Types Verif.Priv Verif.SpecCl Verif.RealInst Verif.SpecFunc.
Local Open Scope R_scope.

Definition cturn (s : Spinor R) (a : clf) : clf := gp (gp (den TSpin s) a) (crev (den TSpin s)).
(** [v'] is what [v] is in the turned frame. *)
Definition seen (s : Spinor R) (t : ty) (v v' : val R t) : Prop := ceq (den t v') (cturn s (den t v)).
(** The same for results of functions, which may not be numbers; those are the same in both frames. *)
Definition seen_result (s : Spinor R) (t : ty) (x x' : val xreal t) : Prop :=
  (exists v v', x = exact t v /\ x' = exact t v' /\ seen s t v v') \/ (x = x' /\ forall v, x <> exact t v).
(** Every vector and bivector part of a value has at least the length of the
    smallest normal double. *)
Definition long_parts (t : ty) : val R t -> Prop :=
  match t return val R t -> Prop with
  | TDub | TSca | TTri | TCplx => fun _ => True
  | TVec => fun v => dmin <= cnorm (den TVec v)
  | TBiv => fun b => dmin <= cnorm (den TBiv b)
  | TSpin => fun v => dmin <= cnorm (den TBiv (spinBiv v))
  | TImsp => fun v => dmin <= cnorm (den TVec (imspVec v))
  | TDplx => fun v => dmin <= cnorm (den TVec (dplxVec v)) /\ dmin <= cnorm (den TBiv (dplxBiv v))
  | TMvec => fun v => dmin <= cnorm (den TVec (mvVec v)) /\ dmin <= cnorm (den TBiv (mvBiv v))
  end.
