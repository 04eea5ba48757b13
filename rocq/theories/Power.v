(** * Model of [sq] and [cube] (g3func.hpp:99-129): the overload set. *)

Require Import Verif.Num Verif.Types Verif.Func.

Section Power.
Context {F : Type} `{Ring0 F}.

(** g3func.hpp:99-114.  The template returns [Type], so it can be instantiated
    where the product of two values of the type has the same type. *)
Definition sq (t : ty) : option (val F t -> val F t) :=
  match t with
  | TDub => Some sq_Dub
  | TSca => Some sq_Sca
  | TSpin => Some sq_Spin
  | TCplx => Some sq_Cplx
  | TMvec => Some sq_Mvec
  | _ => None
  end.
(** g3func.hpp:116-129 *)
Definition cube (t : ty) : option (val F t -> val F t) :=
  match t with
  | TDub => Some cube_Dub
  | TSca => Some cube_Sca
  | TSpin => Some cube_Spin
  | TCplx => Some cube_Cplx
  | TMvec => Some cube_Mvec
  | _ => None
  end.
End Power.
