(** * Model of include/g3_private.hpp. *)

Require Import Verif.Num Verif.Types.

(** Values of an optional type code: [unit] where there is no overload.  (No
    counterpart in the code; the structs are those of g3type.hpp:153-869.) *)
Definition oval (F : Type) (o : option ty) : Type :=
  match o with
  | Some t => val F t
  | None => unit
  end.

(** [priv::binaryElementByElement], g3_private.hpp:53-71, on the two array
    sizes that occur ([std::transform] over two ranges). *)
Definition elementwise1 {F} (op : F -> F -> F) (a b : Arr1 F) : Arr1 F :=
  A1 (op (at0 a) (at0 b)).
(** g3_private.hpp:53-71 *)
Definition elementwise3 {F} (op : F -> F -> F) (a b : Arr3 F) : Arr3 F :=
  A3 (op (at30 a) (at30 b)) (op (at31 a) (at31 b)) (op (at32 a) (at32 b)).

Section Priv.
Context {F : Type} `{Ring0 F}.
Local Open Scope num_scope.

(** [priv::prodComm] on three elements, g3_private.hpp:77-91:
    [std::inner_product] starting from [0.] *)
Definition prodComm3 (argA argB : Arr3 F) : F :=
  0 + at30 argA * at30 argB + at31 argA * at31 argB + at32 argA * at32 argB.

(** [priv::prodComm] on one element, g3_private.hpp:93-102. *)
Definition prodComm1 (argA argB : Arr1 F) : F := at0 argA * at0 argB.

(** [priv::prodAnti], g3_private.hpp:108-121. *)
Definition prodAnti (argA argB : Arr3 F) : Arr3 F :=
  A3 (at31 argA * at32 argB - at32 argA * at31 argB)
     (at32 argA * at30 argB - at30 argA * at32 argB)
     (at30 argA * at31 argB - at31 argA * at30 argB).
End Priv.
